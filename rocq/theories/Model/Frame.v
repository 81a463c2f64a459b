(** Model of lib/src/parse/ParseLayerImpl.cpp, the layer kinds (ParsePayloadLayerImpl.cpp,
    ParseIdLayerImpl.cpp, ParseSizeLayerImpl.cpp, ParseSyncLayerImpl.cpp, ParseChecksumLayerImpl.cpp,
    ParseValueLayerImpl.cpp, ParseCustomLayerImpl.cpp) and ParseFrameImpl.cpp. *)
From Verif.Model Require Import Base Common Xml Units Field FieldCommon IntField EnumField SetField FloatField OptCond Composite Message.

(** ParseLayer::ParseKind *)
Inductive layer_kind := LCustom | LSync | LSize | LId | LValue | LPayload | LChecksum.
Definition layer_kind_eqb (a b : layer_kind) : bool :=
  match a, b with
  | LCustom, LCustom | LSync, LSync | LSize, LSize | LId, LId | LValue, LValue | LPayload, LPayload
  | LChecksum, LChecksum => true
  | _, _ => false
  end.
(** ParseChecksumLayer::ParseAlg *)
Inductive checksum_alg := AlgCustom | AlgSum | AlgCcitt | Alg16 | Alg32 | AlgXor.

(** State of the kinds: ParseSyncLayerImpl.h, ParseChecksumLayerImpl.h, ParseValueLayerImpl.h,
    ParseCustomLayerImpl.h *)
Inductive layer_spec :=
| SPayload | SId | SSize
| SSync (seek : bool) (esc : option (bool * field)) (verifyBeforeRead : bool) (from : str)
| SChecksum (alg : checksum_alg) (algName from until : str) (verifyBeforeRead : bool)
| SValue (ifaces : list iface) (fieldName : str) (pseudo : bool)
| SCustom (semantic : layer_kind) (checksumFrom checksumUntil : str).
(** ParseLayerImpl.h; [ly_field]: own field ([true]) or external field *)
Record layer := mkLayer {
  ly_name : str; ly_displayName : str; ly_description : str; ly_field : option (bool * field); ly_spec : layer_spec }.
(** parseKindImpl of the kinds *)
Definition spec_kind (s : layer_spec) : layer_kind :=
  match s with
  | SPayload => LPayload | SId => LId | SSize => LSize | SSync _ _ _ _ => LSync
  | SChecksum _ _ _ _ _ => LChecksum | SValue _ _ _ => LValue | SCustom _ _ _ => LCustom
  end.
Definition ly_kind (l : layer) : layer_kind := spec_kind (ly_spec l).
Record frame := mkFrame { fr_name : str; fr_displayName : str; fr_description : str; fr_layers : list layer }.

(** Layer.cpp 596-650 parseCreateMap *)
Definition layer_names : list (str * layer_kind) :=
  [(L "payload", LPayload); (L "id", LId); (L "size", LSize); (L "sync", LSync); (L "checksum", LChecksum);
   (L "value", LValue); (L "custom", LCustom)]%string.
Definition layer_types : list str := map fst layer_names.
Definition layer_ctx : ctx := mkCtx PLayer 0 not_deprecated.

(** parseExtraPropsNamesImpl / parseExtraPossiblePropsNamesImpl: Sync.cpp 42-60, Checksum.cpp 46-56,
    Value.cpp 63-71, Custom.cpp 56-66 *)
Definition layer_extra (k : layer_kind) : list str :=
  match k with
  | LSync => [L "seekField"; L "from"; L "verifyBeforeRead"]
  | LChecksum => [L "alg"; L "algName"; L "from"; L "until"; L "verifyBeforeRead"]
  | LValue => [L "interfaces"; L "interfaceFieldName"; L "pseudo"]
  | LCustom => [L "idReplacement"; L "semanticLayerType"; L "checksumFrom"; L "checksumUntil"]
  | _ => []
  end.
Definition layer_possible (k : layer_kind) : list str := match k with LSync => [L "escField"] | _ => [] end.

(** a bool property without dslVersion check: Checksum.cpp 173-191, Value.cpp 188-205, Custom.cpp 68-82 *)
Definition plain_bool (p : props) (k : str) : res bool :=
  _ <- parseValidateSinglePropInstance p k false ;;
  match find_prop p k with None => Ok false | Some v => of_opt (parseStrToBool v) end.
(** Layer.cpp 212-227 parseValidateAndUpdateStringPropValue *)
Definition plain_string (p : props) (k : str) : res str :=
  _ <- parseValidateSinglePropInstance p k false ;; Ok (get_prop p k).

(** ** <sync> *)
(** Sync.cpp 153-180, 245-321 parseUpdateEscFieldInternal *)
Definition sync_esc (e : env) (p : props) (n : node) (seek : bool) : res (option (bool * field)) :=
  _ <- parseValidateSinglePropInstance p (L "escField") false ;;
  ext <- match find_prop p (L "escField") with None => Ok None | Some v => f <- of_opt (e_find e v) ;; Ok (Some f) end ;;
  esc <- match parseGetChildrenNamed n (L "escField"), ext with
         | [], None => Ok None
         | [], Some f => Ok (Some (false, f))
         | [c], None => match parseGetChildren c with
                        | [m] => f <- parse_field e layer_ctx m ;; Ok (Some (true, f))
                        | _ => Err
                        end
         | _, _ => Err
         end ;;
  match esc with
  | None => Ok None
  | Some _ => _ <- guard seek ;; Ok (if prop_supported e (L "escField") then esc else None)
  end.
(** Sync.cpp 62-69, 125-243 parseImpl. 205 sets m_from to null, 223 dereferences it. *)
Definition sync_parse (e : env) (p : props) (n : node) : res layer_spec :=
  _ <- parseValidateSinglePropInstance p (L "seekField") false ;;
  seek <- match find_prop p (L "seekField") with
          | None => Ok false
          | Some v => if negb (prop_supported e (L "seekField")) then Ok false else of_opt (parseStrToBool v)
          end ;;
  esc <- sync_esc e p n seek ;;
  _ <- parseValidateSinglePropInstance p (L "verifyBeforeRead") false ;;
  '(vbr, null) <- match find_prop p (L "verifyBeforeRead") with
                  | None => Ok (false, false)
                  | Some v =>
                      _ <- guard (negb seek) ;;
                      if negb (sync_suffix_supported e) then Ok (false, true)
                      else b <- of_opt (parseStrToBool v) ;; Ok (b, false)
                  end ;;
  _ <- parseValidateSinglePropInstance p (L "from") false ;;
  match find_prop p (L "from") with
  | None => if null : bool then UB else Ok (SSync seek esc vbr [])
  | Some [] => Ok (SSync seek esc vbr [])
  | Some f =>
      _ <- guard (seek || vbr) ;;
      (* 236-241: neither property is set when the suffix layers are not supported *)
      if sync_suffix_supported e then Ok (SSync seek esc vbr f) else UB
  end.

(** ** <checksum> *)
(** Checksum.cpp 115-161 parseUpdateAlg *)
Definition alg_names : list (str * checksum_alg) :=
  [(L "custom", AlgCustom); (L "sum", AlgSum); (L "crc-ccitt", AlgCcitt); (L "crc_ccitt", AlgCcitt);
   (L "crc-16", Alg16); (L "crc_16", Alg16); (L "crc-32", Alg32); (L "crc_32", Alg32); (L "xor", AlgXor)]%string.
(** Checksum.cpp 58-65, 115-191 parseImpl *)
Definition checksum_parse (p : props) : res layer_spec :=
  _ <- parseValidateSinglePropInstance p (L "alg") true ;;
  v <- of_opt (find_prop p (L "alg")) ;;
  alg <- of_opt (assoc (to_lower v) alg_names) ;;
  name <- match alg with
          | AlgCustom =>
              _ <- parseValidateSinglePropInstance p (L "algName") true ;;
              a <- of_opt (find_prop p (L "algName")) ;;
              _ <- guard (parseIsValidName a) ;; Ok a
          | _ => Ok []
          end ;;
  from <- plain_string p (L "from") ;;
  until <- plain_string p (L "until") ;;
  vbr <- plain_bool p (L "verifyBeforeRead") ;;
  Ok (SChecksum alg name from until vbr).

(** ** <value> *)
(** Value.cpp 110-133: the text split at each comma *)
Fixpoint splits (sep : ascii) (s : str) : list str :=
  match s with
  | [] => [[]]
  | c :: s' => if ch_eqb c sep then [] :: splits sep s'
               else match splits sep s' with [] => [[c]] | p :: ps => (c :: p) :: ps end
  end.
(** Value.cpp 73-79, 86-205 parseImpl *)
Definition value_parse (me : menv) (p : props) : res layer_spec :=
  _ <- parseValidateSinglePropInstance p (L "interfaces") false ;;
  ifs <- match find_prop p (L "interfaces") with
         | None => Ok (me_ifaces me)
         | Some [] => Err
         | Some v => mapM (fun s => let r := trim s in _ <- guard (negb (is_nil r)) ;; of_opt (me_iface me r)) (splits "," v)
         end ;;
  _ <- guard (negb (is_nil ifs)) ;;
  _ <- parseValidateSinglePropInstance p (L "interfaceFieldName") true ;;
  name <- of_opt (find_prop p (L "interfaceFieldName")) ;;
  _ <- guard (negb (is_nil name)) ;;
  idxs <- mapM (fun i => of_opt (index_named name 0 (if_fields i))) ifs ;;
  _ <- guard (match idxs with [] => true | i :: l => forallb (Z.eqb i) l end) ;;
  pseudo <- plain_bool p (L "pseudo") ;;
  Ok (SValue ifs name pseudo).

(** ** <custom> *)
(** Custom.cpp 143-197 *)
Definition custom_checksum (e : env) (p : props) (k : str) (sem : layer_kind) : res str :=
  _ <- parseValidateSinglePropInstance p k false ;;
  match find_prop p k with
  | None => Ok []
  | Some v => Ok (if prop_supported e k && layer_kind_eqb sem LChecksum then v else [])
  end.
(** Custom.cpp 41-49, 68-197 parseImpl *)
Definition custom_parse (e : env) (p : props) : res layer_spec :=
  idRepl <- plain_bool p (L "idReplacement") ;;
  let sem := if idRepl : bool then LId else LCustom in
  _ <- parseValidateSinglePropInstance p (L "semanticLayerType") false ;;
  sem <- match find_prop p (L "semanticLayerType") with
         | None => Ok sem
         | Some v => if negb (prop_supported e (L "semanticLayerType")) || is_nil v then Ok sem
                     else _ <- guard (layer_kind_eqb sem LCustom) ;; of_opt (assoc v layer_names)
         end ;;
  from <- custom_checksum e p (L "checksumFrom") sem ;;
  until <- custom_checksum e p (L "checksumUntil") sem ;;
  Ok (SCustom sem from until).

(** ** A layer *)
(** Layer.cpp 76-121 parse, 383-442, 477-594 *)
Definition layer_parse (me : menv) (n : node) : res layer :=
  let e := me_env me in
  k <- of_opt (assoc (n_name n) layer_names) ;;
  p <- parseChildrenAsProps n [L "name"; L "description"; L "displayName"] true (parseNodeProps n) ;;
  p <- parseChildrenAsProps n (layer_extra k) true p ;;
  p <- parseChildrenAsProps n [L "field"] false p ;;
  p <- parseChildrenAsProps n (layer_possible k) false p ;;
  name <- string_prop e p (L "name") true false [] ;;
  _ <- guard (parseIsValidName name) ;;
  dname <- plain_string p (L "displayName") ;;
  let dname := if layer_display_supported e then dname else [] in
  descr <- plain_string p (L "description") ;;
  f <- nested_from_ref e p (L "field") None ;;
  f <- nested_as_child (parse_field e) layer_ctx p n (L "field") UB f ;;
  _ <- guard (Bool.eqb (match f with Some _ => true | None => false end) (negb (layer_kind_eqb k LPayload))) ;;
  s <- match k with
       | LPayload => Ok SPayload
       | LId => Ok SId
       | LSize => Ok SSize
       | LSync => sync_parse e p n
       | LChecksum => checksum_parse p
       | LValue => value_parse me p
       | LCustom => custom_parse e p
       end ;;
  Ok (mkLayer name dname descr f s).

(** ** parseVerify *)
(** Layer.cpp 308-361 parseFindThisLayerIndex, parseFindLayerIndex; [None]: the maximal index *)
Fixpoint find_idx {A} (h : A -> bool) (l : list A) : option nat :=
  match l with
  | [] => None
  | x :: l' => if h x then Some O else option_map S (find_idx h l')
  end.
Definition kind_idx (ls : list layer) (k : layer_kind) : option nat := find_idx (fun l => layer_kind_eqb (ly_kind l) k) ls.
Definition name_idx (ls : list layer) (name : str) : option nat := find_idx (fun l => str_eqb (ly_name l) name) ls.
(** Layer.cpp 235-250 parseVerifySingleLayer *)
Definition single_layer (ls : list layer) (k : layer_kind) : bool :=
  Nat.leb (length (filter (fun l => layer_kind_eqb (ly_kind l) k) ls)) 1.
(** Layer.cpp 252-267 parseVerifyBeforePayload *)
Definition before_payload (ls : list layer) (i : nat) : bool :=
  match kind_idx ls LPayload with Some pl => Nat.ltb i pl | None => true end.
(** Layer.cpp 47-57 *)
Definition layer_from (l : layer) : str :=
  match ly_spec l with SSync _ _ _ f => f | SChecksum _ _ f _ _ => f | _ => [] end.
(** Layer.cpp 269-306 parseVerifySuffixLayersOrder *)
Definition suffix_order (ls : list layer) (payload i fromIdx : nat) : bool :=
  forallb (fun mid => is_nil (layer_from mid) ||
                      match name_idx ls (layer_from mid) with
                      | None => true
                      | Some j => Nat.leb fromIdx j
                      end)
    (firstn (i - S payload) (skipn (S payload) ls)).
(** Checksum.cpp 67-113; Custom.cpp 199-249 without the order of the suffix layers ([order]) *)
Definition checksum_verify (order : bool) (ls : list layer) (i : nat) (from until : str) : bool :=
  negb (is_nil from && is_nil until) &&
  (is_nil from ||
   match name_idx ls from with
   | None => false
   | Some j => Nat.ltb j i &&
               (negb order || match kind_idx ls LPayload with Some pl => suffix_order ls pl i j | None => true end)
   end) &&
  (is_nil until || match name_idx ls until with None => false | Some j => Nat.ltb i j end).
(** Sync.cpp 71-123 *)
Definition sync_verify (e : env) (ls : list layer) (i : nat) (seek : bool) (from : str) : bool :=
  if negb (sync_suffix_supported e) then true
  else match kind_idx ls LPayload with
       | None => true
       | Some pl =>
           if Nat.ltb pl i then
             negb (seek && is_nil from) &&
             (is_nil from ||
              match name_idx ls from with
              | None => false
              | Some j => Nat.leb j pl && suffix_order ls pl i j
              end)
           else is_nil from
       end.
(** parseVerifyImpl of the kinds: Payload.cpp 38-41, Id.cpp 38-42, Size.cpp 38-42, Value.cpp 81-84, Custom.cpp 51-54 *)
Definition layer_verify (e : env) (ls : list layer) (i : nat) (l : layer) : bool :=
  match ly_spec l with
  | SPayload => single_layer ls LPayload
  | SId => single_layer ls LId && before_payload ls i
  | SSize => single_layer ls LSize && before_payload ls i
  | SValue _ _ _ => before_payload ls i
  | SSync seek _ _ from => sync_verify e ls i seek from
  | SChecksum _ _ from until _ => checksum_verify true ls i from until
  | SCustom sem from until => if layer_kind_eqb sem LChecksum then checksum_verify false ls i from until else true
  end.
Fixpoint verify_from (e : env) (ls : list layer) (i : nat) (l : list layer) : bool :=
  match l with [] => true | x :: l' => layer_verify e ls i x && verify_from e ls (S i) l' end.

(** ** <frame> *)
(** Frame.cpp 224-277: the elements of the layers *)
Definition layers_nodes (n : node) : res (list node) :=
  let ls := parseGetChildrenNamed n (L "layers") in
  let direct := parseGetChildrenOf n layer_types false in
  match ls, direct with
  | [], _ :: _ => _ <- guard (Nat.eqb (length (parseGetChildren n)) (length direct)) ;; Ok direct
  | [m], [] => _ <- guard (Nat.eqb (length (parseGetChildrenOf m layer_types false)) (length (parseGetChildren m))) ;;
               Ok (parseGetChildren m)
  | _, _ => Err
  end.
(** Frame.cpp 56-72 parse, 186-332. The check for layers of equal names at 295-306 only writes a message. *)
Definition frame_parse (me : menv) (n : node) : res frame :=
  let e := me_env me in
  p <- parseChildrenAsProps n [L "name"; L "description"; L "displayName"] true (parseNodeProps n) ;;
  name <- string_prop e p (L "name") true false [] ;;
  _ <- guard (parseIsValidName name) ;;
  dname <- plain_string p (L "displayName") ;;
  let dname := if frame_display_supported e then dname else [] in
  descr <- plain_string p (L "description") ;;
  ns <- layers_nodes n ;;
  ls <- mapM (layer_parse me) ns ;;
  _ <- guard (match kind_idx ls LPayload with Some _ => true | None => false end) ;;
  _ <- guard (verify_from e ls 0 ls) ;;
  Ok (mkFrame name dname descr ls).
