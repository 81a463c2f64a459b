(** Model of the generated read function of variants whose members are bundles told apart by a key:
    app/commsdsl2comms/src/CommsVariantField.cpp and the functions of CommsIntField.cpp it uses. *)
From Verif.Model Require Import Base Common Units Field IntField GenUtil GenComms CommsInt.

(** A member of the variant and what the surrounding classes say about it: the scope of the
    customisation option of its key field (if that is customisable) and commsIsVersionDependent of the
    member with references followed.  *)
Record vmember := mkVM { vm_field : field; vm_scope : option str; vm_versions : bool }.

(** CommsVariantField.cpp 122-131 commsGetReferenceFieldInternal *)
Fixpoint dereferenced (f : field) : field := match f with FRef _ _ t => dereferenced t | _ => f end.
(** CommsVariantField.cpp 45-73, CommsIntField.cpp 98-124 commsVariantIsValidPropKey: both functions
    are the same *)
Definition valid_key (c : common) (i : int_state) : bool :=
  c_failOnInvalid c && negb (c_pseudo c) &&
  match i_ranges i with [r] => (r_min r =? r_max r) && (r_min r =? i_default i) | _ => false end.
(** CommsVariantField.cpp 75-98 commsBundleGetValidPropKeyInternal; integer fields have no generated
    read code (CommsField.cpp 211-214, injected code is not modelled) *)
Definition bundle_key (members : list field) : option (common * int_state) :=
  match members with
  | FInt c i :: _ => if valid_key c i then Some (c, i) else None
  | _ => None
  end.
(** CommsIntField.cpp 88-89 *)
Definition key_value_templ : str := L "#^#DEC#$# /* #^#HEX#$# */".
(** CommsIntField.cpp 76-96 commsVariantPropKeyValueStr *)
Definition key_text (i : int_state) : res str :=
  if negb (is_unsigned_type (i_type i)) then genNumToStringS (i_default i)
  else
    let v := to_u64 (i_default i) in
    genProcessTemplate key_value_templ [(L "DEC", genNumToStringU v 0); (L "HEX", genNumToStringU v (i_length i * 2))] false.
(** CommsField.cpp 779-836 for the key as temporary object: a member of a bundle (not global)
    without code of the user *)
Definition key_settings (scope : option str) : field_settings :=
  mkFS false scope false false false [] false false false false.
(** CommsIntField.cpp 585-603 with variantPropKey *)
Definition key_opts (ge : gen_env) (scope : option str) (c : common) (i : int_state) : res str :=
  o <- int_def_opts ge (key_settings scope) c i true ;; Ok (genStrListToString o (L "," ++ [nl]) []).
(** CommsIntField.cpp 126-144 commsVariantIsPropKeyEquivalent *)
Definition same_endian (a b : endian) : bool := match a, b with Little, Little | Big, Big => true | _, _ => false end.
Definition keys_equivalent (ge : gen_env) (s1 : option str) (c1 : common) (i1 : int_state) (s2 : option str) (c2 : common) (i2 : int_state) : res bool :=
  if negb (str_eqb (genCppIntTypeFor (i_type i1) (i_length i1)) (genCppIntTypeFor (i_type i2) (i_length i2))) then Ok false
  else
    o1 <- key_opts ge s1 c1 i1 ;; o2 <- key_opts ge s2 c2 i2 ;;
    if negb (str_eqb o1 o2) then Ok false else Ok (same_endian (i_endian i1) (i_endian i2)).
(** CommsVariantField.cpp 1080-1129, the loop of commsOptimizedReadKeyInternal: the key of the first
    member with one, if the function can be generated.  [prop]: propKey, [seen]: keyValues. *)
Definition key_info := (option str * common * int_state)%type.
Fixpoint key_loop (ge : gen_env) (ms : list vmember) (prop : option key_info) (seen : list str) : res (option key_info) :=
  match ms with
  | [] => Ok prop
  | m :: ms' =>
      match dereferenced (vm_field m) with
      | FBundle _ fs _ _ =>
          match bundle_key fs with
          | None => if is_nil ms' then Ok prop else Ok None
          | Some (c, i) =>
              v <- key_text i ;;
              if mem_str v seen then Ok None
              else match prop with
                   | None => key_loop ge ms' (Some (vm_scope m, c, i)) (v :: seen)
                   | Some (s0, c0, i0) =>
                       same <- keys_equivalent ge s0 c0 i0 (vm_scope m) c i ;;
                       if same then key_loop ge ms' prop (v :: seen) else Ok None
                   end
          end
      | _ => Ok None
      end
  end.
(** CommsIntField.cpp 722-727 *)
Definition int_class_templ : str :=
  L "comms::field::IntValue<" ++ [nl] ++
  L "    #^#PROT_NAMESPACE#$#::field::FieldBase<#^#FIELD_BASE_PARAMS#$#>," ++ [nl] ++
  L "    #^#FIELD_TYPE#$##^#COMMA#$#" ++ [nl] ++
  L "    #^#FIELD_OPTS#$#" ++ [nl] ++
  L ">".
(** CommsIntField.cpp 71-74, 720-742 commsDefBaseClassInternal with variantPropKey.  [ns]: the main
    namespace, [schema]: the endianness of the schema. *)
Definition key_type (ge : gen_env) (ns : str) (schema : endian) (k : key_info) : res str :=
  let '(s, c, i) := k in
  o <- key_opts ge s c i ;;
  genProcessTemplate int_class_templ
    ([(L "PROT_NAMESPACE", ns); (L "FIELD_BASE_PARAMS", field_base_params schema (i_endian i));
      (L "FIELD_TYPE", genCppIntTypeFor (i_type i) (i_length i)); (L "FIELD_OPTS", o)] ++
     (if is_nil o then [] else [(L "COMMA", L ",")])) false.
(** CommsVariantField.cpp 1073-1133 commsOptimizedReadKeyInternal; [None]: empty *)
Definition optimized_key (ge : gen_env) (ns : str) (schema : endian) (ms : list vmember) : res (option str) :=
  if (length ms <=? 1)%nat then Ok None
  else
    k <- key_loop ge ms None [] ;;
    match k with None => Ok None | Some k => t <- key_type ge ns schema k ;; Ok (Some t) end.

(** CommsVariantField.cpp 360-367 *)
Definition case_templ : str :=
  L "case #^#VAL#$#:" ++ [nl] ++
  L "    {" ++ [nl] ++
  L "        auto& field_#^#BUNDLE_NAME#$# = initField_#^#BUNDLE_NAME#$#();" ++ [nl] ++
  L "        COMMS_ASSERT(field_#^#BUNDLE_NAME#$#.field_#^#KEY_NAME#$#().getValue() == commonKeyField.getValue());" ++ [nl] ++
  L "        #^#VERSION_ASSIGN#$#" ++ [nl] ++
  L "        return field_#^#BUNDLE_NAME#$#.template readFrom<1>(iter, len);" ++ [nl] ++
  L "    }".
(** CommsVariantField.cpp 386-390 *)
Definition default_templ : str :=
  L "default:" ++ [nl] ++
  L "    initField_#^#BUNDLE_NAME#$#().field_#^#KEY_NAME#$#().setValue(commonKeyField.getValue());" ++ [nl] ++
  L "    #^#VERSION_ASSIGN#$#" ++ [nl] ++
  L "    return accessField_#^#BUNDLE_NAME#$#().template readFrom<1>(iter, len);".
(** CommsVariantField.cpp 406-411 *)
Definition default_break : str := L "default:" ++ [nl] ++ L "    break;".
(** CommsVariantField.cpp 375-378, 397-400 *)
Definition version_assign (versions : bool) (name : str) : list (str * str) :=
  if versions then [(L "VERSION_ASSIGN", L "field_" ++ name ++ L ".setVersion(Base::getVersion());")] else [].
(** CommsVariantField.cpp 344-404: the cases.  The first member of a bundle is taken for an integer
    field whatever it is (static_cast: undefined if it is none; front() of an empty list). *)
Fixpoint cases_of (ms : list vmember) : res (list str * bool) :=
  match ms with
  | [] => Ok ([], false)
  | m :: ms' =>
      match dereferenced (vm_field m) with
      | FBundle _ (FInt c i :: _) _ _ =>
          let name := genAccessName (f_name (vm_field m)) in
          let key := genAccessName (c_name c) in
          if negb (is_nil ms') || valid_key c i then
            v <- key_text i ;;
            t <- genProcessTemplate case_templ ([(L "VAL", v); (L "BUNDLE_NAME", name); (L "KEY_NAME", key)] ++ version_assign (vm_versions m) name) false ;;
            '(l, d) <- cases_of ms' ;;
            Ok (t :: l, d)
          else
            t <- genProcessTemplate default_templ ([(L "BUNDLE_NAME", name); (L "KEY_NAME", key)] ++ version_assign (vm_versions m) name) false ;;
            Ok ([t], true)
      | _ => UB
      end
  end.
(** CommsVariantField.cpp 413-430 *)
Definition variant_read_templ : str :=
  L "reset();" ++ [nl] ++
  L "#^#VERSION_DEP#$#" ++ [nl] ++
  L "using CommonKeyField=" ++ [nl] ++
  L "    #^#KEY_FIELD_TYPE#$#;" ++ [nl] ++
  L "CommonKeyField commonKeyField;" ++ [nl] ++ [nl] ++
  L "auto origIter = iter;" ++ [nl] ++
  L "auto es = commonKeyField.read(iter, len);" ++ [nl] ++
  L "if (es != comms::ErrorStatus::Success) {" ++ [nl] ++
  L "    return es;" ++ [nl] ++
  L "}" ++ [nl] ++ [nl] ++
  L "auto consumedLen = static_cast<std::size_t>(std::distance(origIter, iter));" ++ [nl] ++
  L "COMMS_ASSERT(consumedLen <= len);" ++ [nl] ++
  L "len -= consumedLen;" ++ [nl] ++ [nl] ++
  L "switch (commonKeyField.getValue()) {" ++ [nl] ++
  L "    #^#CASES#$#" ++ [nl] ++
  L "};" ++ [nl] ++ [nl] ++
  L "return comms::ErrorStatus::InvalidMsgData;" ++ [nl].
(** CommsVariantField.cpp 437-441 *)
Definition version_check : str :=
  L "static_assert(Base::isVersionDependent(), " ++ [""""%char] ++ L "The field must be recognised as version dependent" ++ [""""%char] ++ L ");".
(** CommsVariantField.cpp 335-444 commsDefReadFuncBodyImpl; [versions]: commsIsVersionDependent of the variant *)
Definition variant_read (ge : gen_env) (ns : str) (schema : endian) (versions : bool) (ms : list vmember) : res str :=
  k <- optimized_key ge ns schema ms ;;
  match k with
  | None => Ok []
  | Some t =>
      '(l, d) <- cases_of ms ;;
      genProcessTemplate variant_read_templ
        ([(L "KEY_FIELD_TYPE", t); (L "CASES", genStrListToString (if d : bool then l else l ++ [default_break]) [nl] [])] ++
         (if versions then [(L "VERSION_DEP", version_check)] else [])) false
  end.
