(** Model of the kinds of fields that contain or refer to other fields: lib/src/parse/
    ParseStringFieldImpl.cpp, ParseDataFieldImpl.cpp, ParseListFieldImpl.cpp,
    ParseRefFieldImpl.cpp, ParseOptionalFieldImpl.cpp, ParseBitfieldFieldImpl.cpp,
    ParseBundleFieldImpl.cpp, ParseVariantFieldImpl.cpp, and ParseFieldImpl::parse. *)
From Verif.Model Require Import Base Common Xml Units Field FieldCommon IntField EnumField SetField FloatField OptCond.

(** ParseFieldImpl.cpp 1452-1530 parseCreateMap *)
Definition kind_names : list (str * kind) :=
  [(L "int", KInt); (L "enum", KEnum); (L "set", KSet); (L "float", KFloat); (L "bitfield", KBitfield);
   (L "bundle", KBundle); (L "string", KString); (L "data", KData); (L "list", KList); (L "ref", KRef);
   (L "optional", KOptional); (L "variant", KVariant)]%string.
(** ParseFieldImpl.cpp 200-212 parseSupportedTypes *)
Definition all_types : list str := map fst kind_names.
(** ParseBitfieldFieldImpl.cpp 75-86 parseSupportedTypes *)
Definition bitfield_types : list str := [L "int"; L "enum"; L "set"; L "ref"].

(** parseClone: the copy constructors String.cpp 52-60, Data.cpp 53-61, List.cpp 67-72, Optional.cpp
    65-77, Variant.cpp 58-69, and Bitfield.cpp 52-60, Bundle.cpp 60-67, which do not copy the
    valid condition and the aliases *)
Fixpoint clone (f : field) : field :=
  match f with
  | FBitfield c e ms _ => FBitfield c e (map clone ms) None
  | FBundle c ms _ _ => FBundle c (map clone ms) [] None
  | FString c s pre => FString c s (match pre with Some (true, g) => Some (true, clone g) | _ => pre end)
  | FData c s pre => FData c s (match pre with Some (true, g) => Some (true, clone g) | _ => pre end)
  | FList c s elem cnt len elemLen term =>
      FList c s (match elem with (true, g) => (true, clone g) | _ => elem end)
            (match cnt with Some (true, g) => Some (true, clone g) | _ => cnt end)
            (match len with Some (true, g) => Some (true, clone g) | _ => len end)
            (match elemLen with Some (true, g) => Some (true, clone g) | _ => elemLen end)
            (match term with Some (true, g) => Some (true, clone g) | _ => term end)
  | FOptional c s own g cnd => FOptional c s own (if own then clone g else g) cnd
  | FVariant c d ms => FVariant c d (map clone ms)
  | _ => f
  end.
Definition clone_sub (o : option (bool * field)) : option (bool * field) :=
  match o with Some (true, g) => Some (true, clone g) | _ => o end.

(** parseSetSinceVersion *)
Definition with_since (v : Z) (c : common) : common :=
  mkCommon (c_name c) (c_displayName c) (c_description c) (c_sem c) (c_ovr c) (c_copyCodeFrom c)
           (c_validateMinLength c) (c_pseudo c) (c_fixedValue c) (c_customizable c) (c_failOnInvalid c)
           (c_forceGen c) v (c_deprecated c) (c_removed c) (c_inBitfield c).
Definition map_common (h : common -> common) (f : field) : field :=
  match f with
  | FInt c s => FInt (h c) s | FEnum c s => FEnum (h c) s | FSet c s => FSet (h c) s
  | FFloat c s => FFloat (h c) s | FBitfield c e ms v => FBitfield (h c) e ms v
  | FBundle c ms a v => FBundle (h c) ms a v | FString c s p => FString (h c) s p
  | FData c s p => FData (h c) s p | FList c s e a b d t => FList (h c) s e a b d t
  | FRef c b t => FRef (h c) b t | FOptional c s o g d => FOptional (h c) s o g d
  | FVariant c d ms => FVariant (h c) d ms
  end.
Definition bump_since (v : Z) (f : field) : field :=
  map_common (fun c => with_since (Z.max v (c_since c)) c) f.

(** Field.cpp 885-914 parseCheckDetachedPrefixAllowed *)
Definition detached_allowed (x : ctx) : bool :=
  match x_parent x with PMessage | PField KBundle => true | _ => false end.
(** may be a prefix: String.cpp 488, 560 and the like *)
Definition prefix_field (f : field) : bool := kind_eqb (f_kind f) KInt || is_length_sem f.

Section Rec.
(** parsing of a nested field element, given its parent *)
Variable rec : ctx -> node -> res field.
Variable e : env.
(** [x]: parent of the field being parsed; [xs]: the field itself as a parent *)
Variables (x xs : ctx) (p : props) (n : node).

(** a length / count prefix or a termination suffix: the name of a sibling or a field *)
Definition prefix := (str * option (bool * field))%type.
(** String.cpp 445-501, Data.cpp 344-400, List.cpp 605-664 *)
Definition prefix_from_ref (k : str) (cur : prefix) : res prefix :=
  _ <- parseValidateSinglePropInstance p k false ;;
  match find_prop p k with
  | None => Ok cur
  | Some [] => Err
  | Some (ch :: r) =>
      if ch_eqb ch c_sibling then
        _ <- guard (detached_allowed x) ;;
        _ <- guard (negb (is_nil (normalise r))) ;;
        Ok (normalise r, None)
      else
        f <- of_opt (e_find e (ch :: r)) ;;
        _ <- guard (prefix_field f) ;;
        Ok ([], Some (false, f))
  end.
(** String.cpp 503-571, Data.cpp 402-471, List.cpp 666-738 *)
Definition prefix_as_child (k : str) (cur : prefix) : res prefix :=
  match parseGetChildrenNamed n k with
  | [] => Ok cur
  | [ch] =>
      match parseGetChildren ch, find_prop p k with
      | [], Some _ => Ok cur
      | [], None => Err
      | [m], None =>
          f <- rec xs m ;;
          _ <- guard (prefix_field f) ;;
          Ok ([], Some (true, f))
      | [_], Some _ => Err
      | _ :: _ :: _, _ => Err
      end
  | _ :: _ :: _ => Err
  end.
Definition update_prefix (k : str) (cur : prefix) : res prefix :=
  d <- prefix_from_ref k cur ;; prefix_as_child k d.
Definition has_field (d : prefix) : bool := match snd d with Some _ => true | None => false end.
Definition has_prefix (d : prefix) : bool := has_field d || negb (is_nil (fst d)).

(** ** <string>, <data> *)
(** String.cpp 316-352, Data.cpp 270-300; [pre]: parseHasPrefixField() of the reused state *)
Definition update_fixed_length (old : Z) (pre zeroSuffix : bool) : res Z :=
  _ <- parseValidateSinglePropInstance p (L "length") false ;;
  match find_prop p (L "length") with
  | None => Ok old
  | Some v =>
      l <- of_opt (parseStrToUnsigned v) ;;
      _ <- guard (negb (l =? 0)) ;;
      if old =? l then Ok old
      else _ <- guard (negb pre && negb zeroSuffix) ;; Ok l
  end.
(** String.cpp 236-300 423-443 573-631, Data.cpp 203-268 322-342 473-531: default and valid values;
    [val]: parseStrToValue, [lt]: the order of std::sort (equal values may be swapped) *)
Definition update_values {A} (val : str -> option A) (lt : A -> A -> bool) (since depr : Z)
    (dflt : A) (valid : list (valid_value A)) : res (A * list (valid_value A)) :=
  _ <- parseValidateSinglePropInstance p (L "defaultValue") false ;;
  dflt <- match find_prop p (L "defaultValue") with None => Ok dflt | Some v => of_opt (val v) end ;;
  _ <- parseValidateSinglePropInstance p (L "defaultValidValue") false ;;
  let sup := valid_value_in_string_supported e in
  '(dflt, valid) <- match find_prop p (L "defaultValidValue") with
                    | None => Ok (dflt, valid)
                    | Some v => if negb sup then Ok (dflt, valid)
                                else d <- of_opt (val v) ;; Ok (d, valid ++ [mkVV d since depr])
                    end ;;
  a <- match find_prop (parseNodeProps n) (L "validValue") with
       | None => Ok []
       | Some v => if negb sup then Ok [] else d <- of_opt (val v) ;; Ok [mkVV d since depr]
       end ;;
  cs <- mapM (fun ch =>
          s <- parseNodeValue ch false ;;
          if negb sup then Ok []
          else d <- of_opt (val s) ;;
               '(sv, dv) <- parseGetAndCheckVersionsNode (e_version e) ch (since, depr) ;;
               Ok [mkVV d sv dv]) (parseGetChildrenNamed n (L "validValue")) ;;
  Ok (dflt, isort (fun v w => lt (vv_value v) (vv_value w)) (valid ++ a ++ concat cs)).

(** String.cpp 67-88 *)
Definition string_props : list str :=
  [L "length"; L "encoding"; L "zeroTermSuffix"; L "defaultValue"; L "defaultValidValue"; L "validValue"].
(** String.cpp 380-421 parseUpdateZeroTerm *)
Definition update_zero_term (old : bool) (length : Z) (pre : bool) : res bool :=
  _ <- parseValidateSinglePropInstance p (L "zeroTermSuffix") false ;;
  match find_prop p (L "zeroTermSuffix") with
  | None => Ok old
  | Some v =>
      b <- of_opt (parseStrToBool v) ;;
      if (negb (Bool.eqb b old)) && b then (_ <- guard ((length =? 0) && negb pre) ;; Ok b) else Ok b
  end.
(** String.cpp 99-124 *)
Definition string_parse (c : common) (old : option (string_state * option (bool * field))) : res field :=
  let '(s0, pre0) := match old with Some o => o | None => (mkString [] [] 0 [] [] false, None) end in
  enc <- string_prop e p (L "encoding") false false (st_encoding s0) ;;
  len <- update_fixed_length (st_length s0) (has_field ([], pre0)) (st_zeroSuffix s0) ;;
  pre <- update_prefix (L "lengthPrefix") (st_detached s0, pre0) ;;
  _ <- guard (negb (has_field pre) || ((len =? 0) && negb (st_zeroSuffix s0))) ;;
  zero <- update_zero_term (st_zeroSuffix s0) len (has_field pre) ;;
  '(dflt, valid) <- update_values (deref_string e) str_ltb (c_since c) (c_deprecated c) (st_default s0) (st_valid s0) ;;
  Ok (FString c (mkString dflt enc len (fst pre) valid zero) (snd pre)).

(** Data.cpp 68-87 *)
Definition data_props : list str := [L "length"; L "defaultValue"; L "defaultValidValue"; L "validValue"].
(** Data.cpp 544-596 parseStrToValue *)
Fixpoint hex_bytes (s : str) : option (list Z) :=
  match s with
  | [] => Some []
  | [_] => None
  | a :: b :: s' =>
      if (digit_val a <? 16) && (digit_val b <? 16)
      then option_map (cons (digit_val a * 16 + digit_val b)) (hex_bytes s')
      else None
  end.
Definition data_value (s : str) : option (list Z) :=
  match s with
  | ch :: r =>
      if ch_eqb ch c_extref && field_refs_supported e then e_data e r
      else hex_bytes (filter (fun c => negb (is_sp c)) s)
  | [] => hex_bytes []
  end.
Fixpoint bytes_ltb (a b : list Z) : bool :=
  match a, b with
  | _, [] => false
  | [], _ :: _ => true
  | u :: a', v :: b' => (u <? v) || ((u =? v) && bytes_ltb a' b')
  end.
(** Data.cpp 98-121 *)
Definition data_parse (c : common) (old : option (data_state * option (bool * field))) : res field :=
  let '(s0, pre0) := match old with Some o => o | None => (mkData [] 0 [] [], None) end in
  len <- update_fixed_length (d_length s0) (has_field ([], pre0)) false ;;
  pre <- update_prefix (L "lengthPrefix") (d_detached s0, pre0) ;;
  _ <- guard (negb (has_field pre) || (len =? 0)) ;;
  '(dflt, valid) <- update_values data_value bytes_ltb (c_since c) (c_deprecated c) (d_default s0) (d_valid s0) ;;
  Ok (FData c (mkData dflt len (fst pre) valid) (snd pre)).

(** ** <list>, <optional>: the nested field *)
(** List.cpp 466-488, Optional.cpp 399-422 *)
Definition nested_from_ref (k : str) (cur : option (bool * field)) : res (option (bool * field)) :=
  _ <- parseValidateSinglePropInstance p k false ;;
  match find_prop p k with
  | None => Ok cur
  | Some v => f <- of_opt (e_find e v) ;; Ok (Some (false, f))
  end.
(** List.cpp 490-603, Optional.cpp 424-526; [empty]: what an empty <element/> or <field/> does when the
    property is absent (Optional.cpp 493 takes the front() of an empty vector) *)
Definition nested_as_child (k : str) (empty : res field) (cur : option (bool * field)) : res (option (bool * field)) :=
  let children := parseGetChildrenNamed n k in
  let direct := parseGetChildrenOf n all_types false in
  _ <- guard (Nat.leb (length children) 1) ;;
  match children, direct with
  | [], [] => Ok cur
  | [], m :: _ =>
      _ <- guard (Nat.eqb (length direct) 1 && Nat.eqb (length (parseGetChildren n)) (length direct)) ;;
      _ <- parseValidateNoPropInstance p k ;;
      f <- rec xs m ;; Ok (Some (true, f))
  | ch :: _, [] =>
      _ <- guard (Nat.leb (length (parseGetChildren ch)) 1) ;;
      match find_prop p k with
      | None => f <- match parseGetChildren ch with [] => empty | m :: _ => rec xs m end ;; Ok (Some (true, f))
      | Some _ => _ <- parseValidateNoPropInstance (parseNodeProps n) (L "fields") ;; Ok cur
      end
  | _ :: _, _ :: _ => Err
  end.

(** List.cpp 79-99 *)
Definition list_props : list str := [L "count"; L "elemFixedLength"].
Definition list_possible : list str :=
  [L "element"; L "countPrefix"; L "lengthPrefix"; L "elemLengthPrefix"; L "termSuffix"].
(** List.cpp 274-305 parseUpdateCount *)
Definition update_count (old : Z) (used : bool) : res Z :=
  _ <- parseValidateSinglePropInstance p (L "count") false ;;
  match find_prop p (L "count") with
  | None => Ok old
  | Some v =>
      c <- of_opt (parseStrToUnsigned v) ;;
      _ <- guard (negb (c =? 0) && negb used) ;;
      Ok c
  end.
(** List.cpp 389-422 parseUpdateElemFixedLength *)
Definition update_elem_fixed (old : bool) (elem : field) : res bool :=
  _ <- parseValidateSinglePropInstance p (L "elemFixedLength") false ;;
  b <- match find_prop p (L "elemFixedLength") with None => Ok old | Some v => of_opt (parseStrToBool v) end ;;
  if b : bool then (m <- max_length elem ;; _ <- guard (min_length elem =? m) ;; Ok b) else Ok b.
(** List.cpp 107-135, 258-464 *)
Definition list_parse (c : common)
    (old : option (list_state * (bool * field) * option (bool * field) * option (bool * field) *
                   option (bool * field) * option (bool * field))) : res field :=
  let '(s0, elem0, cnt0, len0, elen0, term0) :=
    match old with
    | Some (s, el, a, b, d, t) => (s, Some el, a, b, d, t)
    | None => (mkList 0 [] [] [] [] false, None, None, None, None, None)
    end in
  elem <- nested_from_ref (L "element") elem0 ;;
  elem <- nested_as_child (L "element") Err elem ;;
  elem <- of_opt elem ;;
  let cnt0 := (l_detCount s0, cnt0) in
  let len0 := (l_detLength s0, len0) in
  let term0 := (l_detTerm s0, term0) in
  count <- update_count (l_count s0)
             (has_prefix cnt0 || has_prefix len0 || has_prefix term0 || negb (is_nil (l_detElemLength s0))) ;;
  cnt <- update_prefix (L "countPrefix") cnt0 ;;
  _ <- guard (negb (has_prefix cnt) || ((count =? 0) && negb (has_prefix len0) && negb (has_prefix term0))) ;;
  len <- update_prefix (L "lengthPrefix") len0 ;;
  _ <- guard (negb (has_prefix len) || ((count =? 0) && negb (has_prefix cnt) && negb (has_prefix term0))) ;;
  fixed <- update_elem_fixed (l_elemFixedLength s0) (snd elem) ;;
  elen <- update_prefix (L "elemLengthPrefix") (l_detElemLength s0, elen0) ;;
  _ <- guard (is_nil (fst elen) || fixed) ;;
  term <- update_prefix (L "termSuffix") term0 ;;
  let term := if has_prefix term && negb (prop_supported e (L "termSuffix")) then ([], None) else term in
  _ <- guard (negb (has_prefix term) || ((count =? 0) && negb (has_prefix cnt) && negb (has_prefix len))) ;;
  Ok (FList c (mkList count (fst cnt) (fst len) (fst elen) (fst term) fixed) elem (snd cnt) (snd len) (snd elen) (snd term)).

(** ** <optional> *)
(** Optional.cpp 84-104 *)
Definition optional_props : list str :=
  [L "defaultMode"; L "cond"; L "displayExtModeCtrl"; L "missingOnReadFail"; L "missingOnInvalid"].
(** Optional.cpp 264-296 parseUpdateMode *)
Definition update_mode (old : opt_mode) : res opt_mode :=
  _ <- parseValidateSinglePropInstance p (L "defaultMode") false ;;
  match find_prop p (L "defaultMode") with
  | None => Ok old
  | Some v => of_opt (assoc (to_lower v)
                [(L "tent", Tentative); (L "tentative", Tentative); (L "t", Tentative);
                 (L "miss", Missing); (L "missing", Missing); (L "m", Missing);
                 (L "exists", Exists); (L "exist", Exists); (L "e", Exists)]%string)
  end.
(** Optional.cpp 330-354 parseUpdateSingleCondition, 356-397 parseUpdateMultiCondition *)
Definition update_opt_cond (old : option cond) : res (option cond) :=
  _ <- parseValidateSinglePropInstance p (L "cond") false ;;
  c <- match find_prop p (L "cond") with None => Ok old | Some v => c <- cond_expr e v ;; Ok (Some c) end ;;
  match parseGetChildrenOf n [L "and"; L "or"] false with
  | [] => Ok c
  | [m] => _ <- parseValidateNoPropInstance p (L "cond") ;;
           c <- cond_list e (L "cond") m ;; Ok (Some c)
  | _ :: _ :: _ => Err
  end.
(** Optional.cpp 112-142 *)
Definition optional_parse (c : common) (old : option (opt_state * bool * field * option cond)) : res field :=
  let '(s0, f0, cond0) := match old with
                          | Some (s, o, g, d) => (s, Some (o, g), d)
                          | None => (mkOpt Tentative false false, None, None)
                          end in
  mode <- update_mode (o_mode s0) ;;
  mrf <- bool_prop e p (L "missingOnReadFail") (o_missingOnReadFail s0) ;;
  moi <- bool_prop e p (L "missingOnInvalid") (o_missingOnInvalid s0) ;;
  f <- nested_from_ref (L "field") f0 ;;
  f <- nested_as_child (L "field") UB f ;;
  f <- of_opt f ;;
  cnd <- update_opt_cond cond0 ;;
  Ok (FOptional c (mkOpt mode mrf moi) (fst f) (snd f) cnd).

(** ** <ref> *)
(** parseValidateBitLengthValueImpl: Int.cpp 459-477, Enum.cpp 201-219, Set.cpp 222-234, Ref.cpp
    205-209, others Field.cpp 637-643 *)
Fixpoint bit_length_ok (f : field) (bits : Z) : bool :=
  match f with
  | FInt _ s => negb (is_var (i_type s)) && (bits <=? i_length s * 8)
  | FEnum _ s => negb (is_var (en_type s)) && (bits <=? en_length s * 8)
  | FSet _ s => bits <=? s_length s * 8
  | FRef _ _ t => bit_length_ok t bits
  | _ => false
  end.
(** Ref.cpp 229-268 parseUpdateBitLength *)
Definition ref_bit_length (c : common) (target : field) (old : Z) : res Z :=
  _ <- parseValidateSinglePropInstance p (L "bitLength") false ;;
  m <- max_length target ;;
  let v := get_prop p (L "bitLength") in
  if is_nil v then Ok (if old =? 0 then to_u64 (m * 8) else old)
  else if negb (c_inBitfield c) then Ok old
  else b <- of_opt (parseStrToUnsigned v) ;;
       _ <- guard (bit_length_ok target b) ;;
       Ok b.
(** Ref.cpp 65-115 *)
Definition ref_parse (c : common) (old : option (Z * field)) : res field :=
  _ <- parseValidateSinglePropInstance p (L "field") (match old with None => true | Some _ => false end) ;;
  match find_prop p (L "field"), old with
  | None, Some (b, t) => Ok (FRef c b t)
  | None, None => Err
  | Some v, _ =>
      t <- of_opt (e_find e v) ;;
      b <- ref_bit_length c t (match old with Some (b, _) => b | None => 0 end) ;;
      let tc := f_common t in
      let name := if is_nil (c_name c) then c_name tc else c_name c in
      let dname := if is_nil (c_displayName c) then c_displayName tc else c_displayName c in
      let sem := match c_sem c, c_sem tc with
                 | SemNone, SemMessageId => SemNone
                 | SemNone, t => if sem_ref_inheritance_supported e then t else SemNone
                 | t, _ => t
                 end in
      Ok (FRef (mkCommon name dname (c_description c) sem (c_ovr c) (c_copyCodeFrom c) (c_validateMinLength c)
                  (c_pseudo c) (c_fixedValue c) (c_customizable c) (c_failOnInvalid c) (c_forceGen c)
                  (c_since c) (c_deprecated c) (c_removed c) (c_inBitfield c)) b t)
  end.

(** ** Members of <bitfield>, <bundle>, <variant> *)
(** Bitfield.cpp 286-346, Bundle.cpp 324-376, Variant.cpp 227-279: the elements of the
    members; [None] when there is neither <members> nor a member element *)
Definition member_nodes (types : list str) : res (option (list node)) :=
  let ms := parseGetChildrenNamed n (L "members") in
  let direct := parseGetChildrenOf n types false in
  match ms, direct with
  | [], [] => Ok None
  | [], _ :: _ => _ <- guard (Nat.eqb (length (parseGetChildren n)) (length direct)) ;; Ok (Some direct)
  | [m], [] => _ <- guard (Nat.eqb (length (parseGetChildrenOf m types false)) (length (parseGetChildren m))) ;;
               Ok (Some (parseGetChildren m))
  | _, _ => Err
  end.

(** Field.cpp 1100-1152 parseCheckReplace, up to parseReplaceMembersImpl *)
Definition replacements (types : list str) (xr : ctx) : res (option (list field)) :=
  match parseGetChildrenNamed n (L "replace") with
  | [] => Ok None
  | [m] =>
      if negb (member_replace_supported e) then Ok None
      else
        _ <- guard (Nat.eqb (length (parseGetChildrenOf m types false)) (length (parseGetChildren m))) ;;
        fs <- mapM (rec xr) (parseGetChildren m) ;;
        Ok (Some fs)
  | _ :: _ :: _ => Err
  end.
(** Bundle.cpp 185-208, Variant.cpp 124-147, Bitfield.cpp 153-184 ([same]: the version check) *)
Fixpoint replace_first (ms : list field) (m : field) : option (list field) :=
  match ms with
  | [] => None
  | y :: ms' => if str_eqb (f_name m) (f_name y) then Some (m :: ms') else option_map (cons y) (replace_first ms' m)
  end.
Definition replace_members (same : field -> bool) (ms : list field) (repl : option (list field)) : res (list field) :=
  match repl with
  | None => Ok ms
  | Some fs => foldM (fun ms m => ms' <- of_opt (replace_first ms m) ;; _ <- guard (same m) ;; Ok ms') fs ms
  end.

(** Bitfield.cpp 363-364 *)
Definition same_versions (c : common) (m : field) : bool :=
  (c_since (f_common m) =? c_since c) && (c_deprecated (f_common m) =? c_deprecated c).
(** Bitfield.cpp 276-403 parseUpdateMembers; [ms0]: reused members after the replacement *)
Definition bitfield_members (c : common) (ms0 : list field) : res (list field) :=
  let ms := map (bump_since (c_since c)) ms0 in
  ns <- member_nodes bitfield_types ;;
  match ns with
  | None => _ <- guard (negb (is_nil ms)) ;; Ok ms
  | Some ns =>
      _ <- guard (is_nil ms) ;;
      ms <- mapM (fun m => f <- rec xs m ;; _ <- guard (same_versions c f) ;; Ok f) ns ;;
      _ <- guard (distinct_names [] ms) ;;
      let total := sum_u64 (map bit_length ms) in
      _ <- guard ((total mod 8 =? 0) && (total <=? 64)) ;;
      Ok ms
  end.

(** parseVerifySiblingsImpl: String.cpp 126-146, Data.cpp 123-144, List.cpp 116-122 762-784, Optional.cpp
    144-152, others Field.cpp 548-551 *)
Definition detached_ok (sibs : list field) (name : str) : bool :=
  is_nil name ||
  match find_sibling (S (length name)) sibs name with
  | None => false
  | Some s => kind_eqb (non_ref_kind s) KInt || is_length_sem s
  end.
Definition verify_siblings (sibs : list field) (f : field) : res unit :=
  match f with
  | FString _ s _ => guard (detached_ok sibs (st_detached s))
  | FData _ s _ => guard (detached_ok sibs (d_detached s))
  | FList _ s _ _ _ _ _ =>
      guard (detached_ok sibs (l_detCount s) && detached_ok sibs (l_detLength s) && detached_ok sibs (l_detElemLength s))
  | FOptional _ _ _ _ (Some d) => cond_verify e sibs d
  | _ => Ok tt
  end.
(** Bundle.cpp 307-322, Variant.cpp 210-225: reused members that stay *)
Definition kept_members (c : common) (ms : list field) : list field :=
  map (bump_since (c_since c))
    (filter (fun m => negb (c_removed (f_common m) && (c_deprecated (f_common m) <=? c_since c))) ms).
(** Bundle.cpp 305-438, Variant.cpp 208-326 parseUpdateMembers ([sib]: Bundle.cpp 395-397) *)
Definition group_members (sib : bool) (c : common) (ms0 : list field) : res (list field) :=
  let ms := kept_members c ms0 in
  ns <- member_nodes all_types ;;
  ms <- match ns with
        | None => _ <- guard (negb (is_nil ms)) ;; Ok ms
        | Some ns =>
            ms <- foldM (fun ms m => f <- rec xs m ;;
                                     _ <- (if sib then verify_siblings ms f else Ok tt) ;;
                                     Ok (ms ++ [f])) ns ms ;;
            _ <- guard (distinct_names [] ms) ;; Ok ms
        end ;;
  _ <- guard (existsb (fun m => c_since (f_common m) =? c_since c) ms) ;;
  Ok ms.
(** Bundle.cpp 422-435 *)
Definition one_length_member (ms : list field) : bool := Nat.leb (length (filter is_length_sem ms)) 1.

(** ** valid conditions of bitfields and bundles *)
Definition f_valid_cond (f : field) : option cond :=
  match f with FBitfield _ _ _ v | FBundle _ _ _ v => v | _ => None end.
(** Bitfield.cpp 415-466, Bundle.cpp 511-562 parseCopyValidCond *)
Definition copy_valid_cond (k : kind) (ms : list field) (cur : option cond) : res (option cond) :=
  _ <- parseValidateSinglePropInstance p (L "copyValidCondFrom") false ;;
  let src := get_prop p (L "copyValidCondFrom") in
  if is_nil src || negb (prop_supported e (L "copyValidCondFrom")) then Ok cur
  else
    f <- of_opt (e_find e src) ;;
    _ <- guard (kind_eqb (f_kind f) k) ;;
    match cur with
    | Some _ => Err
    | None => match f_valid_cond f with
              | None => Ok None
              | Some d => _ <- cond_verify e ms d ;; Ok (Some d)
              end
    end.
(** Bitfield.cpp 468-503, Bundle.cpp 564-599 *)
Definition single_valid_cond (ms : list field) (cur : option cond) : res (option cond) :=
  _ <- parseValidateSinglePropInstance p (L "validCond") false ;;
  match find_prop p (L "validCond") with
  | None => Ok cur
  | Some v =>
      if negb (valid_cond_in_composite_supported e) then Ok cur
      else d <- cond_expr e v ;;
           _ <- guard (negb (has_iface_ref d)) ;;
           _ <- cond_verify e ms d ;;
           Ok (Some d)
  end.
(** Bitfield.cpp 505-563, Bundle.cpp 601-659 *)
Definition multi_valid_cond (ms : list field) (cur : option cond) : res (option cond) :=
  match parseGetChildrenOf n [L "validCond"] true with
  | [] => Ok cur
  | m :: more =>
      if negb (valid_cond_in_composite_supported e) then Ok cur
      else
        _ <- guard (is_nil more) ;;
        match parseGetChildrenOf m [L "and"; L "or"] false with
        | [d] =>
            _ <- parseValidateNoPropInstance p (L "validCond") ;;
            d <- cond_list e (L "validCond") d ;;
            _ <- guard (negb (has_iface_ref d)) ;;
            _ <- cond_verify e ms d ;;
            Ok (Some d)
        | _ => Err
        end
  end.
Definition update_valid_cond (k : kind) (ms : list field) (cur : option cond) : res (option cond) :=
  v <- copy_valid_cond k ms cur ;;
  v <- single_valid_cond ms v ;;
  multi_valid_cond ms v.

(** Bitfield.cpp 97-114, Bundle.cpp 105-122 *)
Definition bitfield_props : list str := [L "endian"; L "copyValidCondFrom"].
Definition bundle_props : list str := [L "reuseAliases"; L "copyValidCondFrom"].
(** Bitfield.cpp 143-151; [ms0]: see bitfield_members *)
Definition bitfield_parse (c : common) (en0 : option endian) (ms0 : list field) (vc0 : option cond) : res field :=
  en <- update_endian e p en0 ;;
  ms <- bitfield_members c ms0 ;;
  vc <- update_valid_cond KBitfield ms vc0 ;;
  Ok (FBitfield c en ms vc).

(** Bundle.cpp 440-499 parseUpdateAliases *)
Definition update_aliases (ms : list field) (als0 : list alias) : res (list alias) :=
  let als := filter (fun a => match find_named (a_fieldName a) ms with Some _ => true | None => false end) als0 in
  match parseGetChildrenNamed n (L "alias") with
  | [] => Ok als
  | ns => _ <- guard (alias_supported e) ;;
          foldM (fun als m => a <- alias_parse e m ;; _ <- guard (alias_verify als ms a) ;; Ok (als ++ [a])) ns als
  end.
(** Bundle.cpp 175-183 *)
Definition bundle_parse (c : common) (ms0 : list field) (als0 : list alias) (vc0 : option cond) : res field :=
  ms <- group_members true c ms0 ;;
  _ <- guard (one_length_member ms) ;;
  als <- update_aliases ms als0 ;;
  vc <- update_valid_cond KBundle ms vc0 ;;
  Ok (FBundle c ms als vc).

(** Variant.cpp 91-99 *)
Definition variant_props : list str := [L "defaultMember"; L "displayIdxReadOnlyHidden"].
Fixpoint index_named (k : str) (i : Z) (ms : list field) : option Z :=
  match ms with
  | [] => None
  | m :: ms' => if str_eqb k (f_name m) then Some i else index_named k (i + 1) ms'
  end.
(** Variant.cpp 328-392 parseUpdateDefaultMember; [None]: no default member (max size_t) *)
Definition update_default_member (ms : list field) (old : option Z) : res (option Z) :=
  _ <- parseValidateSinglePropInstance p (L "defaultMember") false ;;
  let v := get_prop p (L "defaultMember") in
  if is_nil v then Ok old
  else if parseIsValidName v then (i <- of_opt (index_named v 0 ms) ;; Ok (Some i))
  else
    i <- of_opt (if parseIsValidRefName v then e_enum e v else parseStrToIntMax v) ;;
    if i <? 0 then Ok None
    else _ <- guard (i <? Z.of_nat (length ms)) ;; Ok (Some i).
(** Variant.cpp 149-155 *)
Definition variant_parse (c : common) (ms0 : list field) (d0 : option Z) : res field :=
  ms <- group_members false c ms0 ;;
  d <- update_default_member ms d0 ;;
  Ok (FVariant c d ms).
End Rec.

(** ** ParseFieldImpl::parse *)
(** parseExtraPropsNamesImpl of the kinds; parseExtraPossiblePropsNamesImpl *)
Definition extra_props (k : kind) : list str :=
  match k with
  | KInt => int_props | KEnum => enum_props | KSet => set_props | KFloat => float_props
  | KBitfield => bitfield_props | KBundle => bundle_props | KString => string_props | KData => data_props
  | KList => list_props | KRef => [L "field"; L "bitLength"] | KOptional => optional_props
  | KVariant => variant_props
  end.
Definition possible_props (k : kind) : list str :=
  match k with
  | KBitfield | KBundle => [L "validCond"]
  | KString | KData => [L "lengthPrefix"]
  | KList => list_possible
  | KOptional => [L "field"]
  | _ => []
  end.
(** parseSupportedMemberTypesImpl: Bitfield.cpp 247-250, Bundle.cpp 295-298; empty (every name) for others, Field.cpp 655-659 *)
Definition replace_types (k : kind) : list str :=
  match k with KBitfield => bitfield_types | KBundle => all_types | _ => [] end.

(** ParseFieldImpl.cpp 127-133 parseImpl of each kind, after parseReuseImpl on [old] and
    parseReplaceMembersImpl on [repl]; [c0]: common state before, [c]: after 104-124 *)
Definition kind_parse (rec : ctx -> node -> res field) (e : env) (x : ctx) (c0 c : common) (p : props) (n : node)
    (k : kind) (old : option field) (repl : option (list field)) : res field :=
  let xs := mkCtx (PField k) (c_since c) (c_deprecated c) in
  let none := match repl with None => Ok tt | Some _ => Err end in
  match k with
  | KInt => _ <- none ;;
      s <- int_parse e c p n (match old with Some (FInt _ s) => Some s | _ => None end) ;; Ok (FInt c s)
  | KEnum => _ <- none ;;
      s <- enum_parse e c p n (match old with Some (FEnum _ s) => Some s | _ => None end) ;; Ok (FEnum c s)
  | KSet => _ <- none ;;
      s <- set_parse e c p n (match old with Some (FSet _ s) => Some s | _ => None end) ;; Ok (FSet c s)
  | KFloat => _ <- none ;;
      s <- float_parse e c p n (match old with Some (FFloat _ s) => Some s | _ => None end) ;; Ok (FFloat c s)
  | KString => _ <- none ;;
      string_parse rec e x xs p n c (match old with Some (FString _ s q) => Some (s, clone_sub q) | _ => None end)
  | KData => _ <- none ;;
      data_parse rec e x xs p n c (match old with Some (FData _ s q) => Some (s, clone_sub q) | _ => None end)
  | KList => _ <- none ;;
      list_parse rec e x xs p n c
        (match old with
         | Some (FList _ s (o, g) a b d t) =>
             Some (s, (o, if o then clone g else g), clone_sub a, clone_sub b, clone_sub d, clone_sub t)
         | _ => None end)
  | KRef => _ <- none ;;
      ref_parse e p c (match old with Some (FRef _ b t) => Some (b, t) | _ => None end)
  | KOptional => _ <- none ;;
      optional_parse rec e xs p n c
        (match old with Some (FOptional _ s o g d) => Some (s, o, if o then clone g else g, d) | _ => None end)
  | KBitfield =>
      let '(en0, ms0, vc0) :=
        match old with Some (FBitfield _ en ms vc) => (Some en, map clone ms, vc) | _ => (None, [], None) end in
      ms0 <- replace_members (same_versions c0) ms0 repl ;;
      bitfield_parse rec e xs p n c en0 ms0 vc0
  | KBundle =>
      (* Bundle.cpp 144-166 *)
      reuseAliases <- (match old with
                       | Some _ => if alias_supported e then bool_prop e p (L "reuseAliases") true else Ok false
                       | None => Ok false
                       end) ;;
      let '(ms0, als0, vc0) :=
        match old with
        | Some (FBundle _ ms als vc) => (map clone ms, (if reuseAliases : bool then als else []), vc)
        | _ => ([], [], None)
        end in
      ms0 <- replace_members (fun _ => true) ms0 repl ;;
      bundle_parse rec e xs p n c ms0 als0 vc0
  | KVariant =>
      let '(ms0, d0) := match old with Some (FVariant _ d ms) => (map clone ms, d) | _ => ([], None) end in
      ms0 <- replace_members (fun _ => true) ms0 repl ;;
      variant_parse rec e xs p n c ms0 d0
  end.

(** ParseFieldImpl.cpp 69-158 parse, the element being created by parseCreate (54-67); [fuel]
    bounds the nesting of elements *)
Fixpoint field_parse (fuel : nat) (e : env) (x : ctx) (n : node) : res field :=
  match fuel with
  | O => Err
  | S fuel' =>
      let rec := field_parse fuel' e in
      k <- of_opt (assoc (n_name n) kind_names) ;;
      p <- field_props n (extra_props k) (possible_props k) ;;
      '(c0, old) <- check_reuse e x k p ;;
      repl <- replacements rec e n (replace_types k) (mkCtx (PField k) (c_since c0) (c_deprecated c0)) ;;
      c <- update_common e x p c0 ;;
      f <- kind_parse rec e x c0 c p n k old repl ;;
      _ <- verify_field e f ;;
      Ok f
  end.
(** nesting depth of an element: enough fuel *)
Fixpoint depth (n : node) : nat :=
  match n with
  | Elem _ _ ch => S ((fix go (l : list node) : nat := match l with [] => O | m :: l' => Nat.max (depth m) (go l') end) ch)
  | _ => 1%nat
  end.
Definition parse_field (e : env) (x : ctx) (n : node) : res field := field_parse (depth n) e x n.
