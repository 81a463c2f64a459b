(** Model of lib/src/parse/ParseInterfaceImpl.cpp and ParseMessageImpl.cpp: the elements made
    of an ordered list of fields. *)
From Verif.Model Require Import Base Common Xml Units Field FieldCommon IntField EnumField SetField FloatField OptCond Composite.

(** ParseInterfaceImpl.h m_state. Versions of an interface are never set. *)
Record iface := mkIface {
  if_name : str; if_description : str; if_fields : list field; if_aliases : list alias; if_copyCodeFrom : str }.

(** ParseMessage::ParseSender *)
Inductive sender := Both | Client | Server.
(** ParseMessageImpl.h 179-271 ParseReusableState and the versions of ParseObject.h; [m_ovr]: read,
    write, refresh, length, valid, name override *)
Record message := mkMessage {
  m_name : str; m_displayName : str; m_description : str; m_id : Z; m_order : Z; m_validateMinLength : Z;
  m_fields : list field; m_aliases : list alias; m_platforms : list str; m_sender : sender;
  m_ovr : list override; m_copyCodeFrom : str;
  m_construct : option cond; m_readCond : option cond; m_validCond : option cond;
  m_customizable : bool; m_failOnInvalid : bool;
  m_since : Z; m_deprecated : Z; m_removed : bool }.

(** What interfaces, messages and frames read from the protocol object besides [env]:
    parseFindMessage / parseFindInterface (checkRef = true), platforms of the current schema, interfaces of
    its namespaces (ParseProtocolImpl::parseAllInterfaces on the current schema). *)
Record menv := mkMenv {
  me_env : env;
  me_msg : str -> option message;
  me_iface : str -> option iface;
  me_platforms : list str;
  me_ifaces : list iface }.

(** ParseProtocolImpl.cpp 394-507 *)
Definition interface_reuse_supported (e : env) : bool := supports e 7.
Definition ns_display_supported (e : env) : bool := supports e 7.
Definition frame_display_supported (e : env) : bool := supports e 7.
Definition layer_display_supported (e : env) : bool := supports e 7.
Definition sync_suffix_supported (e : env) : bool := supports e 8.

(** ** Parts common to messages and interfaces *)
(** Message.cpp 984-1030, Interface.cpp 442-493: the elements of the fields; [None] when there is neither
    <fields> nor a field element *)
Definition fields_nodes (n : node) : res (option (list node)) :=
  let fs := parseGetChildrenNamed n (L "fields") in
  let direct := parseGetChildrenOf n all_types false in
  match fs, direct with
  | [], [] => Ok None
  | [], _ :: _ => _ <- guard (Nat.eqb (length (parseGetChildren n)) (length direct)) ;; Ok (Some direct)
  | [m], [] => _ <- guard (Nat.eqb (length (parseGetChildrenOf m all_types false)) (length (parseGetChildren m))) ;;
               Ok (Some (parseGetChildren m))
  | _, _ => Err
  end.
(** Message.cpp 1032-1053, Interface.cpp 495-514 *)
Definition add_fields (e : env) (x : ctx) (ns : list node) (fs : list field) : res (list field) :=
  foldM (fun fs m => f <- parse_field e x m ;; _ <- verify_siblings e fs f ;; Ok (fs ++ [f])) ns fs.

(** the field a clone of whose members is copied: Message.cpp 803-818, Interface.cpp 422-437 *)
Definition copied_bundle (e : env) (v : str) : res (list field * list alias) :=
  _ <- guard (copy_from_bundle_supported e) ;;
  f <- of_opt (e_find e v) ;;
  match f with FBundle _ ms als _ => Ok (map clone ms, als) | _ => Err end.

Definition target_exists (fs : list field) (a : alias) : bool :=
  match find_named (a_fieldName a) fs with Some _ => true | None => false end.
(** Message.cpp 916-982, Interface.cpp 525-592 parseCopyAliases; [src]: aliases of the element the fields are
    copied from; [always]: whether the aliases are filtered without such an element (messages) *)
Definition copy_aliases (e : env) (p : props) (always : bool) (fs : list field) (src : option (list alias))
    (als : list alias) : res (list alias) :=
  let k := L "copyFieldsAliases" in
  _ <- parseValidateSinglePropInstance p k false ;;
  let v := find_prop p k in
  if negb (alias_supported e) then match v with Some _ => Err | None => Ok als end
  else
    copy <- match v with None => Ok true | Some v => of_opt (parseStrToBool v) end ;;
    if negb copy then Ok als
    else match src, v with
         | Some l, _ => Ok (filter (target_exists fs) (als ++ l))
         | None, Some _ => Ok als
         | None, None => Ok (if always then filter (target_exists fs) als else als)
         end.
(** Message.cpp 1077-1115, Interface.cpp 628-666 parseUpdateAliases *)
Definition add_aliases (e : env) (n : node) (fs : list field) (als : list alias) : res (list alias) :=
  match parseGetChildrenNamed n (L "alias") with
  | [] => Ok als
  | ns => _ <- guard (alias_supported e) ;;
          foldM (fun als m => a <- alias_parse e m ;; _ <- guard (alias_verify als fs a) ;; Ok (als ++ [a])) ns als
  end.
(** Message.cpp 445-482, Interface.cpp 338-374: aliases and copyCodeFrom after the reuse of [v] *)
Definition reuse_extras (e : env) (p : props) (v : str) (als : list alias) : res (list alias * str) :=
  keep <- bool_prop e p (L "reuseAliases") true ;;
  _ <- parseValidateSinglePropInstance p (L "reuseCode") false ;;
  copy <- bool_prop e p (L "reuseCode") false ;;
  Ok (if keep : bool then als else [], if copy : bool then v else []).

(** ** <interface> *)
(** Interface.cpp 284-297 *)
Definition iface_props : list str :=
  [L "name"; L "description"; L "copyFieldsFrom"; L "copyFieldsAliases"; L "reuse"; L "reuseCode"; L "reuseAliases"].
Definition iface_ctx : ctx := mkCtx PInterface 0 not_deprecated.
(** Interface.cpp 308-375 parseCheckReuse *)
Definition iface_reuse (me : menv) (p : props) : res iface :=
  let e := me_env me in
  _ <- parseValidateSinglePropInstance p (L "reuse") false ;;
  match find_prop p (L "reuse") with
  | None => Ok (mkIface [] [] [] [] [])
  | Some v =>
      if negb (interface_reuse_supported e) then Ok (mkIface [] [] [] [] [])
      else
        i <- of_opt (me_iface me v) ;;
        '(als, copy) <- reuse_extras e p v (if_aliases i) ;;
        Ok (mkIface (if_name i) (if_description i) (map clone (if_fields i)) als copy)
  end.
(** Interface.cpp 398-440 parseCopyFields *)
Definition iface_copy (me : menv) (p : props) (fs : list field) : res (list field * option (list alias)) :=
  _ <- parseValidateSinglePropInstance p (L "copyFieldsFrom") false ;;
  match find_prop p (L "copyFieldsFrom") with
  | None => Ok (fs, None)
  | Some v =>
      _ <- guard (is_nil fs) ;;
      match me_iface me v with
      | Some i => Ok (map clone (if_fields i), Some (if_aliases i))
      | None => '(ms, als) <- copied_bundle (me_env me) v ;; Ok (ms, Some als)
      end
  end.
(** Interface.cpp 54-73 parse *)
Definition iface_parse (me : menv) (n : node) : res iface :=
  let e := me_env me in
  p <- parseChildrenAsProps n iface_props true (parseNodeProps n) ;;
  i <- iface_reuse me p ;;
  name <- string_prop e p (L "name") (is_nil (if_name i)) false (if_name i) ;;
  _ <- guard (parseIsValidName name) ;;
  descr <- string_prop e p (L "description") false false (if_description i) ;;
  '(fs, src) <- iface_copy me p (if_fields i) ;;
  ns <- fields_nodes n ;;
  fs <- match ns with
        | None => Ok fs
        | Some ns => fs <- add_fields e iface_ctx ns fs ;; _ <- guard (distinct_names [] fs) ;; Ok fs
        end ;;
  als <- copy_aliases e p false fs src (if_aliases i) ;;
  als <- add_aliases e n fs als ;;
  Ok (mkIface name descr fs als (if_copyCodeFrom i)).

(** ** <message> *)
(** Message.cpp 155-168 parseMinLength of a message with these fields, introduced in version [since] *)
Definition fields_min_length (since : Z) (fs : list field) : Z :=
  fold_left (fun a f => if since <? c_since (f_common f) then a else to_u64 (a + min_length f)) fs 0.
Definition msg_min_length (m : message) : Z := fields_min_length (m_since m) (m_fields m).
(** Message.cpp 170-177 parseMaxLength *)
Definition msg_max_length (m : message) : res Z :=
  foldM (fun a f => x <- max_length f ;; Ok (add_len x a)) (m_fields m) 0.

(** Message.cpp 342-389 *)
Definition message_common_props : list str :=
  [L "name"; L "id"; L "displayName"; L "description"; L "sinceVersion"; L "deprecated"; L "removed";
   L "copyFieldsFrom"; L "copyFieldsAliases"; L "order"; L "platforms"; L "customizable"; L "sender";
   L "validateMinLength"; L "readOverride"; L "writeOverride"; L "refreshOverride"; L "lengthOverride";
   L "validOverride"; L "nameOverride"; L "copyCodeFrom"; L "constructAsReadCond"; L "constructAsValidCond";
   L "failOnInvalid"; L "reuse"; L "reuseCode"; L "reuseAliases"; L "copyConstructFrom"; L "copyReadCondFrom";
   L "copyValidCondFrom"].
Definition message_extra_props : list str := [L "construct"; L "readCond"; L "validCond"].
Definition message_overrides : list str :=
  [L "readOverride"; L "writeOverride"; L "refreshOverride"; L "lengthOverride"; L "validOverride"; L "nameOverride"].

Definition empty_message : message :=
  mkMessage [] [] [] 0 0 (-1) [] [] [] Both (repeat OvrAny 6) [] None None None false false 0 not_deprecated false.
(** Message.cpp 415-483 parseCheckReuse, ParseMessageImpl.h 241-270 *)
Definition message_reuse (me : menv) (p : props) : res message :=
  let e := me_env me in
  _ <- parseValidateSinglePropInstance p (L "reuse") false ;;
  match find_prop p (L "reuse") with
  | None => Ok empty_message
  | Some v =>
      if negb (message_reuse_supported e) then Ok empty_message
      else
        m <- of_opt (me_msg me v) ;;
        '(als, copy) <- reuse_extras e p v (m_aliases m) ;;
        Ok (mkMessage (m_name m) (m_displayName m) (m_description m) (m_id m) (m_order m) (m_validateMinLength m)
              (map clone (m_fields m)) als (m_platforms m) (m_sender m) (m_ovr m) copy
              (m_construct m) (m_readCond m) (m_validCond m) (m_customizable m) (m_failOnInvalid m)
              (m_since m) (m_deprecated m) (m_removed m))
  end.
(** Message.cpp 511-532 parseUpdateId (parseStrToEnumValue with checkRef = true) *)
Definition message_id (e : env) (p : props) : res Z :=
  _ <- parseValidateSinglePropInstance p (L "id") true ;;
  v <- of_opt (find_prop p (L "id")) ;;
  match (if parseIsValidRefName v then e_enum e v else None) with
  | Some x => Ok (to_u64 x)
  | None => of_opt (parseStrToUintMax v)
  end.
(** Message.cpp 534-554 parseUpdateOrder *)
Definition message_order (p : props) (old : Z) : res Z :=
  _ <- parseValidateSinglePropInstance p (L "order") false ;;
  match find_prop p (L "order") with None => Ok old | Some v => of_opt (parseStrToUnsigned v) end.
(** Message.cpp 556-608 parseUpdateVersions *)
Definition message_versions (e : env) (p : props) : res (Z * Z * bool) :=
  _ <- parseValidateSinglePropInstance p (L "sinceVersion") false ;;
  _ <- parseValidateSinglePropInstance p (L "deprecated") false ;;
  _ <- parseValidateSinglePropInstance p (L "removed") false ;;
  '(since, depr) <- parseGetAndCheckVersions (e_version e) p (0, not_deprecated) ;;
  removed <- match find_prop p (L "removed") with None => Ok false | Some v => of_opt (parseStrToBool v) end ;;
  Ok (since, depr, removed).

(** Message.cpp 634-649: the text split at each comma; no piece after a trailing comma *)
Fixpoint pieces (sep : ascii) (s : str) : list str :=
  match s with
  | [] => []
  | c :: s' => if ch_eqb c sep then [] :: pieces sep s'
               else match pieces sep s' with
                    | [] => [[c]]
                    | p :: ps => (c :: p) :: ps
                    end
  end.
(** std::unique on adjacent elements *)
Fixpoint uniq (l : list str) : list str :=
  match l with
  | [] => []
  | x :: l' => match l' with
               | [] => [x]
               | y :: _ => if str_eqb x y then uniq l' else x :: uniq l'
               end
  end.
(** std::lower_bound on a sorted range: its first element not less than [x], here compared with [x] *)
Fixpoint lower_bound_is (x : str) (l : list str) : bool :=
  match l with
  | [] => false
  | y :: l' => if str_ltb y x then lower_bound_is x l' else str_eqb y x
  end.
(** std::set_difference *)
Fixpoint set_difference (a : list str) : list str -> list str :=
  match a with
  | [] => fun _ => []
  | x :: a' => fix go (b : list str) : list str :=
      match b with
      | [] => x :: a'
      | y :: b' => if str_ltb x y then x :: set_difference a' b
                   else if str_ltb y x then go b'
                   else set_difference a' b'
      end
  end.
(** Message.cpp 610-697 parseUpdatePlatforms *)
Definition message_platforms (me : menv) (p : props) (old : list str) : res (list str) :=
  _ <- parseValidateSinglePropInstance p (L "platforms") false ;;
  match find_prop p (L "platforms") with
  | None => Ok old
  | Some [] => Err
  | Some (op :: v) =>
      _ <- guard (ch_eqb op "+" || ch_eqb op "-") ;;
      let l := map trim (pieces "," v) in
      _ <- guard (negb (is_nil l)) ;;
      _ <- guard (forallb (fun x => negb (is_nil x) && lower_bound_is x (me_platforms me)) l) ;;
      let l := uniq (isort str_ltb l) in
      if ch_eqb op "+" then Ok l
      else
        let r := old ++ set_difference (me_platforms me) l in
        _ <- guard (negb (is_nil r)) ;; Ok r
  end.
(** Message.cpp 704-733 parseUpdateSender *)
Definition message_sender (p : props) (old : sender) : res sender :=
  _ <- parseValidateSinglePropInstance p (L "sender") false ;;
  match find_prop p (L "sender") with
  | None => Ok old
  | Some v => of_opt (assoc (to_lower v) [(L "both", Both); (L "client", Client); (L "server", Server)]%string)
  end.
(** Message.cpp 735-760 parseUpdateValidateMinLength *)
Definition message_validate_min_length (e : env) (p : props) (old : Z) : res Z :=
  _ <- parseValidateSinglePropInstance p (L "validateMinLength") false ;;
  match find_prop p (L "validateMinLength") with
  | None => Ok old
  | Some v => if negb (prop_supported e (L "validateMinLength")) then Ok old
              else x <- of_opt (parseStrToUnsigned v) ;; Ok (to_s32 x)
  end.
(** Message.cpp 779-837 parseCopyFields *)
Definition message_copy (me : menv) (p : props) (since : Z) (fs : list field) : res (list field * option (list alias)) :=
  _ <- parseValidateSinglePropInstance p (L "copyFieldsFrom") false ;;
  match find_prop p (L "copyFieldsFrom") with
  | None => Ok (fs, None)
  | Some v =>
      _ <- guard (is_nil fs) ;;
      '(fs, als) <- match me_msg me v with
                    | Some m => Ok (map clone (m_fields m), m_aliases m)
                    | None => copied_bundle (me_env me) v
                    end ;;
      Ok (map (bump_since since)
            (filter (fun f => negb (c_removed (f_common f) && (c_deprecated (f_common f) <=? since))) fs), Some als)
  end.
(** Message.cpp 839-914 parseReplaceFields: 862 compares the number of fields with the number of
    <replace> elements, so there is exactly one field *)
Definition message_replace (e : env) (x : ctx) (n : node) (fs : list field) : res (list field) :=
  match parseGetChildrenNamed n (L "replace") with
  | [] => Ok fs
  | [m] =>
      if negb (member_replace_supported e) then Ok fs
      else match parseGetChildrenOf m all_types false with
           | [c] => f <- parse_field e x c ;;
                    _ <- verify_siblings e fs f ;;
                    of_opt (replace_first fs f)
           | _ => Err
           end
  | _ :: _ :: _ => Err
  end.
(** Message.cpp 984-1075 parseUpdateFields *)
Definition message_fields (e : env) (x : ctx) (n : node) (vml : Z) (fs : list field) : res (list field) :=
  ns <- fields_nodes n ;;
  match ns with
  | None => Ok fs
  | Some ns =>
      fs <- add_fields e x ns fs ;;
      _ <- guard (distinct_names [] fs) ;;
      _ <- guard ((vml <? 0) || (to_u32 vml =? fields_min_length (x_since x) fs)) ;;
      Ok fs
  end.
(** Message.cpp 1179-1207 parseUpdateCopyOverrideCodeFrom *)
Definition message_copy_code (me : menv) (p : props) (old : str) : res str :=
  _ <- parseValidateSinglePropInstance p (L "copyCodeFrom") false ;;
  match find_prop p (L "copyCodeFrom") with
  | None => Ok old
  | Some v => if negb (prop_supported (me_env me) (L "copyCodeFrom")) then Ok old
              else _ <- of_opt (me_msg me v) ;; Ok v
  end.
(** Message.cpp 1209-1293 parseCopyConstruct, parseCopyReadCond: property [k], condition [sel] of the message *)
Definition message_copy_cond (me : menv) (p : props) (k : str) (sel : message -> option cond) (cur : option cond)
    : res (option cond) :=
  _ <- parseValidateSinglePropInstance p k false ;;
  match find_prop p k with
  | None => Ok cur
  | Some v =>
      if negb (prop_supported (me_env me) k) then Ok cur
      else
        m <- of_opt (me_msg me v) ;;
        c <- of_opt (sel m) ;;
        _ <- cond_verify (me_env me) [] c ;;
        Ok (Some c)
  end.
(** Message.cpp 1295-1363 parseCopyValidCond *)
Definition message_copy_valid_cond (me : menv) (p : props) (fs : list field) (cur : option cond) : res (option cond) :=
  let k := L "copyValidCondFrom" in
  _ <- parseValidateSinglePropInstance p k false ;;
  match find_prop p k with
  | None => Ok cur
  | Some v =>
      if negb (prop_supported (me_env me) k) then Ok cur
      else
        src <- match me_msg me v with
               | Some m => Ok (m_validCond m)
               | None => f <- of_opt (e_find (me_env me) v) ;;
                         match f with FBundle _ _ _ vc => Ok vc | _ => Err end
               end ;;
        c <- of_opt src ;;
        _ <- cond_verify (me_env me) fs c ;;
        Ok (Some c)
  end.
(** Message.cpp 47-78 parseVerifyConstructInternal *)
Fixpoint construct_ok (c : cond) : bool :=
  match c with
  | CExpr l op _ => is_nil l || str_eqb op (L "=")
  | CList isAnd cs => isAnd && negb (is_nil cs) && forallb construct_ok cs
  end.
Definition construct_verify (c : option cond) : res unit :=
  match c with None => Ok tt | Some c => guard (construct_ok c) end.
(** Message.cpp 1461-1496 parseUpdateSingleCondInternal *)
Definition single_cond (e : env) (p : props) (k : str) (fs : list field) (cur : option cond) : res (option cond) :=
  _ <- parseValidateSinglePropInstance p k false ;;
  match find_prop p k with
  | None => Ok cur
  | Some v =>
      if negb (prop_supported e k) then Ok cur
      else c <- cond_expr e v ;; _ <- cond_verify e fs c ;; Ok (Some c)
  end.
(** Message.cpp 1498-1555 parseUpdateMultiCondInternal *)
Definition multi_cond (e : env) (p : props) (n : node) (k : str) (fs : list field) (cur : option cond) : res (option cond) :=
  match parseGetChildrenOf n [k] true with
  | [] => Ok cur
  | m :: more =>
      if negb (prop_supported e k) then Ok cur
      else
        _ <- guard (is_nil more) ;;
        match parseGetChildrenOf m [L "and"; L "or"] false with
        | [d] =>
            _ <- parseValidateNoPropInstance p k ;;
            c <- cond_list e k d ;;
            _ <- cond_verify e fs c ;;
            Ok (Some c)
        | _ => Err
        end
  end.
(** Message.cpp 1557-1606 parseCopyCondInternal (allowOverride = false) *)
Definition cond_as (e : env) (p : props) (k : str) (from to : option cond) : res (option cond) :=
  _ <- parseValidateSinglePropInstance p k false ;;
  match find_prop p k with
  | None => Ok to
  | Some v =>
      if negb (prop_supported e k) then Ok to
      else
        b <- of_opt (parseStrToBool v) ;;
        if negb b then Ok to
        else match from, to with
             | Some c, None => Ok (Some c)
             | _, _ => Err
             end
  end.

(** the conditions: Message.cpp 118-130 *)
Definition message_conds (me : menv) (p : props) (n : node) (fs : list field) (m0 : message)
    : res (option cond * option cond * option cond) :=
  let e := me_env me in
  con <- message_copy_cond me p (L "copyConstructFrom") m_construct (m_construct m0) ;;
  rc <- message_copy_cond me p (L "copyReadCondFrom") m_readCond (m_readCond m0) ;;
  vc <- message_copy_valid_cond me p fs (m_validCond m0) ;;
  con <- single_cond e p (L "construct") [] con ;;
  _ <- construct_verify con ;;
  con <- multi_cond e p n (L "construct") [] con ;;
  _ <- construct_verify con ;;
  rc <- single_cond e p (L "readCond") [] rc ;;
  rc <- multi_cond e p n (L "readCond") [] rc ;;
  vc <- single_cond e p (L "validCond") fs vc ;;
  vc <- multi_cond e p n (L "validCond") fs vc ;;
  rc <- cond_as e p (L "constructAsReadCond") con rc ;;
  vc <- cond_as e p (L "constructAsValidCond") con vc ;;
  Ok (con, rc, vc).

(** Message.cpp 88-134 parse *)
Definition message_parse (me : menv) (n : node) : res message :=
  let e := me_env me in
  p <- parseChildrenAsProps n message_common_props true (parseNodeProps n) ;;
  p <- parseChildrenAsProps n message_extra_props false p ;;
  m0 <- message_reuse me p ;;
  name <- string_prop e p (L "name") (is_nil (m_name m0)) false (m_name m0) ;;
  _ <- guard (parseIsValidName name) ;;
  dname <- string_prop e p (L "displayName") false true (m_displayName m0) ;;
  descr <- string_prop e p (L "description") false true (m_description m0) ;;
  id <- message_id e p ;;
  order <- message_order p (m_order m0) ;;
  '(since, depr, removed) <- message_versions e p ;;
  plats <- message_platforms me p (m_platforms m0) ;;
  custom <- bool_prop e p (L "customizable") (m_customizable m0) ;;
  snd <- message_sender p (m_sender m0) ;;
  vml <- message_validate_min_length e p (m_validateMinLength m0) ;;
  foi <- bool_prop e p (L "failOnInvalid") (m_failOnInvalid m0) ;;
  let foi := foi && foi_in_message_supported e in
  let x := mkCtx PMessage since depr in
  '(fs, src) <- message_copy me p since (m_fields m0) ;;
  fs <- message_replace e x n fs ;;
  fs <- message_fields e x n vml fs ;;
  als <- copy_aliases e p true fs src (m_aliases m0) ;;
  als <- add_aliases e n fs als ;;
  ovr <- override_props e p message_overrides (m_ovr m0) ;;
  copy <- message_copy_code me p (m_copyCodeFrom m0) ;;
  '(con, rc, vc) <- message_conds me p n fs m0 ;;
  Ok (mkMessage name dname descr id order vml fs als plats snd ovr copy con rc vc custom foi since depr removed).
