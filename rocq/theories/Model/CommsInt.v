(** Model of the generated definition of integer fields:
    app/commsdsl2comms/src/CommsIntField.cpp, lib/src/gen/GenIntField.cpp and the
    options common to all fields, app/commsdsl2comms/src/CommsField.cpp. *)
From Verif.Model Require Import Base Common Field IntField GenUtil GenComms.

(** What the code asks the generator: the versions and genVersionDependentCode of
    the schema (lib/src/gen/GenSchema.cpp 399-402). *)
Record gen_env := mkGE { ge_ver : gen_versions; ge_versionDependent : bool }.

(** every option is in this namespace *)
Definition copt (s : str) : str := L "comms::option::def::" ++ s.

(** The settings CommsField::commsAddFieldDefOptions looks at besides the parsed
    field: global field, scope of the customisation option, hasName (not a
    temporary object), forced FailOnInvalid, presence of a custom valid function and
    the argument of the FieldType option (838-858), custom read/refresh/write code, forced pseudo. *)
Record field_settings := mkFS {
  fs_global : bool; fs_custom : option str; fs_named : bool; fs_forcedFail : bool; fs_hasValid : bool;
  fs_typeName : str; fs_hasRead : bool; fs_hasRefresh : bool; fs_hasWrite : bool; fs_forcedPseudo : bool }.

Definition add_if (b : bool) (s : str) (opts : list str) : list str :=
  if b then genAddToStrList s opts else opts.
(** CommsField.cpp 779-836 commsAddFieldDefOptions *)
Definition comms_def_options (x : field_settings) (c : common) : list str :=
  let o := (if fs_global x then [L "TExtraOpts..."] else []) ++
           match fs_custom x with Some s => [L "typename TOpt::" ++ s] | None => [] end in
  let o := add_if (fs_named x) (copt (L "HasName")) o in
  let o := if fs_forcedFail x then o ++ [copt (L "FailOnInvalid<comms::ErrorStatus::ProtocolError>")]
           else add_if (c_failOnInvalid c) (copt (L "FailOnInvalid<>")) o in
  let o := add_if ((fs_forcedFail x || c_failOnInvalid c) && fs_hasValid x) (copt (L "FieldType<" ++ fs_typeName x ++ L ">")) o in
  let o := add_if (fs_hasRead x) (copt (L "HasCustomRead")) o in
  let o := add_if (fs_hasRefresh x) (copt (L "HasCustomRefresh")) o in
  let o := add_if (fs_hasWrite x) (copt (L "HasCustomWrite")) o in
  let o := add_if (fs_forcedPseudo x || c_pseudo c) (copt (L "EmptySerialization")) o in
  add_if (c_fixedValue c) (copt (L "FixedValue")) o.

(** CommsField.cpp 764-777 commsFieldBaseParams *)
Definition field_base_params (schema e : endian) : str :=
  match schema, e with
  | Little, Little | Big, Big => []
  | _, _ => genParseEndianToOpt e
  end.

(** GenIntField.cpp 82-99 genIsUnsignedType *)
Definition is_unsigned_type (t : int_type) : bool :=
  match t with Uint8 | Uint16 | Uint32 | Uint64 | Uintvar => true | _ => false end.
(** GenIntField.cpp 37-63: sorted by value, then by name *)
Definition lt_special (unsgn : bool) (a b : str * named_val) : bool :=
  if v_value (snd a) =? v_value (snd b) then str_ltb (fst a) (fst b)
  else if unsgn then to_u64 (v_value (snd a)) <? to_u64 (v_value (snd b))
  else v_value (snd a) <? v_value (snd b).
Definition specials_sorted (i : int_state) : list (str * named_val) :=
  isort (lt_special (is_unsigned_type (i_type i))) (i_specials i).

(** CommsIntField.cpp 768-779 LengthMap *)
Definition type_length (t : int_type) : Z :=
  match t with
  | Int8 | Uint8 => 1 | Int16 | Uint16 => 2 | Int32 | Uint32 => 4 | Int64 | Uint64 => 8 | Intvar | Uintvar => 0
  end.
Definition sign_ext_param (i : int_state) : str := if i_signExt i then [] else L ", false".
(** CommsIntField.cpp 744-808 commsAddLengthOptInternal; parseMinLength, parseMaxLength
    and parseBitLength are ParseIntFieldImpl.cpp 392-413. *)
Definition add_length_opt (c : common) (i : int_state) (opts : list str) : list str :=
  let minLength := if is_var (i_type i) then 1 else i_length i in
  let bits := if c_inBitfield c then i_bitLength i else 0 in
  if is_var (i_type i) then
    genAddToStrList (copt (L "VarLength<" ++ genNumToStringU minLength 0 ++ L ", " ++ genNumToStringU (i_length i) 0 ++ L ">")) opts
  else if negb (bits =? 0) then
    genAddToStrList (copt (L "FixedBitLength<" ++ genNumToStringU bits 0 ++ sign_ext_param i ++ L ">")) opts
  else if negb (type_length (i_type i) =? minLength) then
    genAddToStrList (copt (L "FixedLength<" ++ genNumToStringU minLength 0 ++ sign_ext_param i ++ L ">")) opts
  else opts.
(** 810-823 *)
Definition add_ser_offset_opt (i : int_state) (opts : list str) : res (list str) :=
  if i_serOffset i =? 0 then Ok opts
  else s <- genNumToStringS (i_serOffset i) ;; Ok (genAddToStrList (copt (L "NumValueSerOffset<" ++ s ++ L ">")) opts).
(** 825-838 *)
Definition add_display_offset_opt (i : int_state) (opts : list str) : res (list str) :=
  if i_displayOffset i =? 0 then Ok opts
  else s <- genNumToStringS (i_displayOffset i) ;; Ok (genAddToStrList (copt (L "DisplayOffset<" ++ s ++ L ">")) opts).
(** 840-864 *)
Definition add_scaling_opt (i : int_state) (opts : list str) : res (list str) :=
  let '(num, denom) := i_scaling i in
  if (num =? 1) && (denom =? 1) then Ok opts
  else if (num =? 0) || (denom =? 0) then Ok opts
  else a <- genNumToStringS num ;; b <- genNumToStringS denom ;;
       Ok (genAddToStrList (copt (L "ScalingRatio<" ++ a ++ L ", " ++ b ++ L ">")) opts).
(** 866-874 *)
Definition add_units_opt (i : int_state) (opts : list str) : list str :=
  let s := genParseUnitsToOpt (i_units i) in
  if is_nil s then opts else genAddToStrList s opts.
(** 876-909 commsAddDefaultValueOptInternal; genSchemaVersion is an unsigned. *)
Definition is_version_sem (s : sem_type) : bool := match s with SemVersion => true | _ => false end.
Definition add_default_opt (ge : gen_env) (c : common) (i : int_state) (opts : list str) : res (list str) :=
  if (i_default i =? 0) && is_version_sem (c_sem c) then
    Ok (genAddToStrList (copt (L "DefaultNumValue<" ++ genNumToStringU (genSchemaVersion (ge_ver ge)) 0 ++ L ">")) opts)
  else if i_default i =? 0 then Ok opts
  else if (i_default i <? 0) && is_big (i_type i) then
    Ok (genAddToStrList (copt (L "DefaultBigUnsignedNumValue<" ++ genNumToStringU (to_u64 (i_default i)) 0 ++ L ">")) opts)
  else s <- genNumToStringS (i_default i) ;; Ok (genAddToStrList (copt (L "DefaultNumValue<" ++ s ++ L ">")) opts).

(** ** Valid ranges, 911-1066 *)
(** 919-922 bigUnsigned *)
Definition gen_big_unsigned (i : int_state) : bool :=
  match i_type i with
  | Uint64 => true
  | Uintvar => false
  | _ => 8 <=? i_length i
  end.
Definition uns (big : bool) (z : Z) : Z := if big then to_u64 z else z.
(** 935-946 needToMergeCheck: "max1 + 1" wraps for unsigned numbers and overflows for signed ones *)
Definition need_merge (big : bool) (a b : vrange) : res bool :=
  m1 <- (if big then Ok (to_u64 (to_u64 (r_max a) + 1)) else s64 (r_max a + 1)) ;;
  Ok (uns big (r_min b) <=? m1).
(** 928-991: the index loop; [a] is the element at the index *)
Fixpoint unify_from (big : bool) (a : vrange) (l : list vrange) : res (list vrange) :=
  match l with
  | [] => Ok [a]
  | b :: l' =>
      m <- need_merge big a b ;;
      if m : bool then
        let a' := if uns big (r_max a) <? uns big (r_max b)
                  then mkRange (r_min a) (r_max b) (r_since a) (r_depr a) else a in
        unify_from big a' l'
      else rest <- unify_from big b l' ;; Ok (a :: rest)
  end.
Definition unify (big : bool) (l : list vrange) : res (list vrange) :=
  match l with [] => Ok [] | a :: l' => unify_from big a l' end.
Definition in_intmax (z : Z) : bool := to_u64 z <=? 9223372036854775807.
(** 1004-1054: the option for a range *)
Definition range_opt (big : bool) (r : vrange) : res str :=
  if big && negb (in_intmax (r_min r) && in_intmax (r_max r)) then
    Ok (copt (if r_min r =? r_max r
              then L "ValidBigUnsignedNumValue<" ++ genNumToStringU (to_u64 (r_min r)) 0 ++ L ">"
              else L "ValidBigUnsignedNumValueRange<" ++ genNumToStringU (to_u64 (r_min r)) 0 ++ L ", " ++
                   genNumToStringU (to_u64 (r_max r)) 0 ++ L ">"))
  else if r_min r =? r_max r then a <- genNumToStringS (r_min r) ;; Ok (copt (L "ValidNumValue<" ++ a ++ L ">"))
  else a <- genNumToStringS (r_min r) ;; b <- genNumToStringS (r_max r) ;;
       Ok (copt (L "ValidNumValueRange<" ++ a ++ L ", " ++ b ++ L ">")).
(** 924-926 and 266-268 *)
Definition valid_check_version (ge : gen_env) (i : int_state) : bool :=
  ge_versionDependent ge && i_validCheckVersion i.
(** 996-1056: the loop over the ranges: options, versionStorageRequired, addedRangeOpt *)
Definition ranges_step (ge : gen_env) (big check : bool) (acc : list str * bool * bool) (r : vrange)
  : res (list str * bool * bool) :=
  let '(opts, storage, added) := acc in
  if negb (genDoesElementExist (ge_ver ge) (r_since r) (r_depr r) (negb check)) then Ok acc
  else if check && genIsElementOptional (ge_ver ge) (r_since r) (r_depr r) false then Ok (opts, true, added)
  else o <- range_opt big r ;; Ok (genAddToStrList o opts, storage, true).
Definition add_ranges_opt (ge : gen_env) (i : int_state) (opts : list str) : res (list str) :=
  if is_nil (i_ranges i) then Ok opts
  else
    let big := gen_big_unsigned i in
    let check := valid_check_version ge i in
    ranges <- (if check then Ok (i_ranges i) else unify big (i_ranges i)) ;;
    '(opts, storage, added) <- foldM (ranges_step ge big check) ranges (opts, false, false) ;;
    Ok (if storage : bool then
          let o := genAddToStrList (copt (L "VersionStorage")) opts in
          if added : bool then o else genAddToStrList (copt (L "InvalidByDefault")) o
        else opts).

(** 1082-1096 *)
Definition requires_refresh (c : common) (i : int_state) : bool :=
  c_failOnInvalid c && negb (c_fixedValue c) && negb (is_nil (i_ranges i)).
(** 585-603 commsDefFieldOptsInternal *)
Definition int_def_opts (ge : gen_env) (x : field_settings) (c : common) (i : int_state) (variantKey : bool)
  : res (list str) :=
  let o := comms_def_options x c in
  let o := add_length_opt c i o in
  o <- add_ser_offset_opt i o ;;
  o <- add_display_offset_opt i o ;;
  o <- add_scaling_opt i o ;;
  let o := add_units_opt i o in
  if variantKey then Ok o
  else
    o <- add_default_opt ge c i o ;;
    o <- add_ranges_opt ge i o ;;
    let o := add_if (requires_refresh c i) (copt (L "HasCustomRefresh")) o in
    Ok (add_if (i_availableLengthLimit i) (copt (L "AvailableLengthLimit")) o).

(** 240-260: the value a refresh of an invalid field assigns *)
Definition refresh_value (i : int_state) : res str :=
  match i_ranges i with r :: _ => genNumToStringS (r_min r) | [] => UB end.

(** 262-352 commsDefValidFuncBodyImpl: the conjunctions, of which one has to hold
    if the options do not accept the value *)
Definition check_conds (big : bool) (r : vrange) : res (list str) :=
  '(lo, hi) <- (if big then Ok (genNumToStringU (to_u64 (r_min r)) 0, genNumToStringU (to_u64 (r_max r)) 0)
                else a <- genNumToStringS (r_min r) ;; b <- genNumToStringS (r_max r) ;; Ok (a, b)) ;;
  Ok ((if 0 <? r_since r then [L "(" ++ genNumToStringU (r_since r) 0 ++ L " <= Base::getVersion())"] else []) ++
      (if r_depr r <? 4294967295 then [L "(Base::getVersion() < " ++ genNumToStringU (r_depr r) 0 ++ L ")"] else []) ++
      (if r_min r =? r_max r then [L "(static_cast<ValueType>(" ++ lo ++ L ") == Base::getValue())"]
       else [L "(static_cast<ValueType>(" ++ lo ++ L ") <= Base::getValue())";
             L "(Base::getValue() <= static_cast<ValueType>(" ++ hi ++ L "))"])).
Definition valid_checks (ge : gen_env) (i : int_state) : res (list (list str)) :=
  if negb (valid_check_version ge i) then Ok []
  else mapM (check_conds (is_big (i_type i)))
         (filter (fun r => genIsElementOptional (ge_ver ge) (r_since r) (r_depr r) true) (i_ranges i)).
(** the text of the function body; empty if there is nothing to check *)
Definition range_templ : str := L "if (#^#COND#$#) {" ++ [nl] ++ L "    return true;" ++ [nl] ++ L "}" ++ [nl].
Definition valid_templ : str :=
  L "if (Base::valid()) {" ++ [nl] ++ L "    return true;" ++ [nl] ++ L "}" ++ [nl; nl] ++
  L "#^#RANGES_CHECKS#$#" ++ [nl] ++ L "return false;" ++ [nl].
Fixpoint checks_text (l : list (list str)) : res str :=
  match l with
  | [] => Ok []
  | conds :: l' =>
      s <- genProcessTemplate range_templ [(L "COND", genStrListToString conds (L " &&" ++ [nl]) [])] false ;;
      rest <- checks_text l' ;;
      Ok (if is_nil rest then s else s ++ [nl] ++ rest)
  end.
Definition valid_body (ge : gen_env) (i : int_state) : res str :=
  checks <- valid_checks ge i ;;
  if is_nil checks then Ok []
  else t <- checks_text checks ;; genProcessTemplate valid_templ [(L "RANGES_CHECKS", t)] false.

(** 494-546 commsCommonSpecialsCodeInternal: name and value text of each generated
    special value function "valueName()" *)
Definition special_funcs (ge : gen_env) (i : int_state) : res (list (str * str)) :=
  mapM (fun s : str * named_val =>
          v <- (if is_big (i_type i) then Ok (genNumToStringU (to_u64 (v_value (snd s))) 0)
                else genNumToStringS (v_value (snd s))) ;;
          Ok (L "value" ++ genClassName (fst s), v))
       (filter (fun s => genDoesElementExist (ge_ver ge) (v_since (snd s)) (v_depr (snd s)) true) (specials_sorted i)).
(** 548-583 commsCommonSpecialNamesMapCodeInternal: function called and name of
    each entry of the map *)
Definition special_map (i : int_state) : list (str * str) :=
  map (fun s => (L "value" ++ genClassName (fst s), fst s)) (specials_sorted i).
(** 469-477: hasSpecials() *)
Definition has_specials (i : int_state) : bool := negb (is_nil (specials_sorted i)).
(** 720-742 commsDefBaseClassInternal: the arguments of comms::field::IntValue<> *)
Definition int_base_class (ge : gen_env) (x : field_settings) (schema : endian) (c : common) (i : int_state)
  : res (str * str * str) :=
  o <- int_def_opts ge x c i false ;;
  Ok (field_base_params schema (i_endian i), genCppIntTypeFor (i_type i) (i_length i),
      genStrListToString o (L "," ++ [nl]) []).

(** 234-260 commsDefRefreshFuncBodyImpl: the body of the generated refresh() *)
Definition refresh_templ : str :=
  L "bool updated = Base::refresh();" ++ [nl] ++ L "if (Base::valid()) {" ++ [nl] ++ L "    return updated;" ++ [nl] ++ L "};" ++ [nl] ++
  L "Base::setValue(#^#VALID_VALUE#$#);" ++ [nl] ++ L "return true;" ++ [nl].
Definition int_refresh_body (c : common) (i : int_state) : res str :=
  if negb (requires_refresh c i) then Ok []
  else v <- refresh_value i ;; genProcessTemplate refresh_templ [(L "VALID_VALUE", v)] false.

(** CommsField.cpp 738-762 commsCommonNameFuncCode without custom code; [scope] is the
    result of genScopeFor. *)
Definition name_templ : str :=
  L "/// @brief Name of the @ref #^#SCOPE#$# field." ++ [nl] ++ L "static const char* name()" ++ [nl] ++ L "{" ++ [nl] ++
  L "    return ""#^#NAME#$#"";" ++ [nl] ++ L "}" ++ [nl] ++ L "#^#CUSTOM#$#" ++ [nl].
Definition name_func (scope : str) (c : common) : res str :=
  genProcessTemplate name_templ [(L "SCOPE", scope); (L "NAME", genDisplayName (c_displayName c) (c_name c)); (L "CUSTOM", [])] false.
