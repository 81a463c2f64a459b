(** Model of the generated conditions of optional fields:
    app/commsdsl2comms/src/CommsOptionalField.cpp and the access strings of
    CommsField.cpp, CommsBundleField.cpp, CommsBitfieldField.cpp, CommsRefField.cpp,
    CommsSetField.cpp, CommsIntField.cpp, CommsEnumField.cpp, CommsStringField.cpp,
    CommsDataField.cpp, CommsListField.cpp. *)
From Verif.Model Require Import Base Common Xml Units Field FieldCommon IntField OptCond GenUtil GenComms CommsInt.

(** The generator the code asks: versions (as in CommsInt), genFindField and the
    members of all interfaces of the schema (genGetAllInterfaces). *)
Record cond_env := mkCE { ce_gen : gen_env; ce_find : str -> option field; ce_interfaces : list (list field) }.

Definition velem_of (f : field) : velem :=
  let c := f_common f in mkVE EField (c_since c) (c_deprecated c) (c_removed c).
(** CommsField.cpp 358-361 commsIsVersionOptional; [up]: the elements around the field,
    innermost first, nothing for a global field *)
Definition version_optional (ge : gen_env) (up : list velem) (f : field) : bool :=
  genIsVersionOptionalField (ge_ver ge) (ge_versionDependent ge) (velem_of f :: up).

(** strings.cpp 413-417 *)
Definition unexpected : str := L "???".
(** accStr.substr(sepPos + 1), empty without separator *)
Definition rem_acc (acc : str) : str := rest_or_nil (snd (first_seg acc)).

(** commsValueAccessStr: CommsField.cpp 298-305 690-694, CommsBundleField.cpp 431-446,
    CommsBitfieldField.cpp 221-236, CommsOptionalField.cpp 503-517 (the name in front of
    the separator is only compared in an assert, 698-717), CommsRefField.cpp 167-171,
    CommsSetField.cpp 396-411.  The member lookup is CommsBundleField.cpp 677-700. *)
Fixpoint value_access (ge : gen_env) (up : list velem) (f : field) (acc prefix : str) : str :=
  let pre := prefix ++ (if version_optional ge up f then L ".field()" else []) in
  let base := pre ++ L ".getValue()" in
  match f with
  | FBitfield _ _ ms _ | FBundle _ ms _ _ =>
      if is_nil acc then base
      else let (first, rest) := first_seg acc in
           (fix go (l : list field) : str :=
              match l with
              | [] => unexpected
              | m :: l' =>
                  if str_eqb (f_name m) first
                  then value_access ge (velem_of f :: up) m (rest_or_nil rest)
                         (pre ++ L ".field_" ++ genAccessName (f_name m) ++ L "()")
                  else go l'
              end) ms
  | FOptional _ _ own g _ =>
      if is_nil acc then base
      else value_access ge (if own then velem_of f :: up else []) g (rem_acc acc) (pre ++ L ".field()")
  | FRef _ _ t => value_access ge [] t acc pre
  | FSet _ s =>
      if is_nil acc then base
      else match assoc acc (s_bits s) with
           | None => unexpected
           | Some _ => pre ++ L ".getBitValue_" ++ acc ++ L "()"
           end
  | _ => base
  end.

(** commsSizeAccessStr: CommsField.cpp 307-314 696-702, CommsBundleField.cpp 448-463,
    CommsBitfieldField.cpp 238-253, CommsOptionalField.cpp 519-533, CommsRefField.cpp 173-177,
    CommsStringField.cpp 372-376, CommsDataField.cpp 436-440, CommsListField.cpp 548-552;
    other fields give the empty string. *)
Fixpoint size_access (ge : gen_env) (up : list velem) (f : field) (acc prefix : str) : str :=
  let pre := prefix ++ (if version_optional ge up f then L ".field()" else []) in
  match f with
  | FBitfield _ _ ms _ | FBundle _ ms _ _ =>
      if is_nil acc then []
      else let (first, rest) := first_seg acc in
           (fix go (l : list field) : str :=
              match l with
              | [] => unexpected
              | m :: l' =>
                  if str_eqb (f_name m) first
                  then size_access ge (velem_of f :: up) m (rest_or_nil rest)
                         (pre ++ L ".field_" ++ genAccessName (f_name m) ++ L "()")
                  else go l'
              end) ms
  | FOptional _ _ own g _ =>
      if is_nil acc then []
      else size_access ge (if own then velem_of f :: up else []) g (rem_acc acc) (pre ++ L ".field()")
  | FRef _ _ t => size_access ge [] t acc pre
  | FString _ _ _ | FData _ _ _ | FList _ _ _ _ _ _ _ => pre ++ L ".getValue().size()"
  | _ => []
  end.

(** commsCompOptChecks: CommsField.cpp 323-332 704-709, CommsBundleField.cpp 465-481,
    CommsBitfieldField.cpp 255-271, CommsOptionalField.cpp 535-552, CommsRefField.cpp 179-183 *)
Fixpoint opt_checks (ge : gen_env) (up : list velem) (f : field) (acc prefix : str) : list str :=
  let v := version_optional ge up f in
  let pre := prefix ++ (if v then L ".field()" else []) in
  (if v then [prefix ++ L ".doesExist()"] else []) ++
  match f with
  | FBitfield _ _ ms _ | FBundle _ ms _ _ =>
      if is_nil acc then []
      else let (first, rest) := first_seg acc in
           (fix go (l : list field) : list str :=
              match l with
              | [] => []
              | m :: l' =>
                  if str_eqb (f_name m) first
                  then opt_checks ge (velem_of f :: up) m (rest_or_nil rest)
                         (pre ++ L ".field_" ++ genAccessName (f_name m) ++ L "()")
                  else go l'
              end) ms
  | FOptional _ _ own g _ =>
      (pre ++ L ".doesExist()") ::
      (if is_nil acc then []
       else opt_checks ge (if own then velem_of f :: up else []) g (rem_acc acc) (pre ++ L ".field()"))
  | FRef _ _ t => opt_checks ge [] t acc pre
  | _ => []
  end.

(** commsCompValueCastType: CommsField.cpp 334-342 711-715, CommsBundleField.cpp 483-499,
    CommsBitfieldField.cpp 273-289, CommsOptionalField.cpp 554-568, CommsRefField.cpp 185-189,
    CommsStringField.cpp 388-394 *)
Fixpoint cast_type (ge : gen_env) (up : list velem) (f : field) (acc prefix : str) : str :=
  let pre := prefix ++ (if version_optional ge up f then L "Field::" else []) in
  let base := pre ++ L "ValueType" in
  match f with
  | FBitfield _ _ ms _ | FBundle _ ms _ _ =>
      if is_nil acc then base
      else let (first, rest) := first_seg acc in
           (fix go (l : list field) : str :=
              match l with
              | [] => unexpected
              | m :: l' =>
                  if str_eqb (f_name m) first
                  then cast_type ge (velem_of f :: up) m (rest_or_nil rest)
                         (pre ++ L "Field_" ++ genAccessName (f_name m) ++ L "::")
                  else go l'
              end) ms
  | FOptional _ _ own g _ =>
      if is_nil acc then base
      else cast_type ge (if own then velem_of f :: up else []) g (rem_acc acc) (pre ++ L "Field::")
  | FRef _ _ t => cast_type ge [] t acc pre
  | FString _ _ _ => []
  | _ => base
  end.

(** commsCompPrepValueStr of the field at the end of an access path: CommsBundleField.cpp
    501-517, CommsBitfieldField.cpp 291-307, CommsOptionalField.cpp 570-584,
    CommsRefField.cpp 191-195.  [None]: a bundle or bitfield without such member returns the
    value unchanged, as do all the kinds for which the base class is used. *)
Fixpoint acc_leaf (f : field) (acc : str) : option field :=
  match f with
  | FBitfield _ _ ms _ | FBundle _ ms _ _ =>
      if is_nil acc then Some f
      else let (first, rest) := first_seg acc in
           (fix go (l : list field) : option field :=
              match l with
              | [] => None
              | m :: l' => if str_eqb (f_name m) first then acc_leaf m (rest_or_nil rest) else go l'
              end) ms
  | FOptional _ _ _ g _ => if is_nil acc then Some f else acc_leaf g (rem_acc acc)
  | FRef _ _ t => acc_leaf t acc
  | _ => Some f
  end.

(** CommsStringField.cpp 396-444; genStringRefPrefix is '^'.  genFindField without a
    string field leaves the value as it is. *)
Definition string_value (ce : cond_env) (value : str) : str :=
  let q s := [chr 34] ++ s ++ [chr 34] in
  match value with
  | [] => q value
  | c :: r =>
      if ch_eqb c "^" then
        match ce_find ce r with
        | Some (FString _ s _) => q (st_default s)
        | _ => q value
        end
      else match split_at "^" value with
           | None => q value
           | Some (before, _) => if forallb (fun x => ch_eqb x "\"%char) before then q r else q value
           end
  end.
(** CommsIntField.cpp 391-458 and CommsEnumField.cpp 490-536.  The references to other
    fields may refer to further fields; the counter is started above the length of
    the text, which gets shorter on that way. *)
Definition int_text (t : int_type) (v : Z) : res str :=
  if is_unsigned_type t then Ok (genNumToStringU (to_u64 v) 0) else genNumToStringS v.
Definition split_last_dot (s : str) : option (str * str) :=
  match split_at "." (rev s) with Some (a, b) => Some (rev b, rev a) | None => None end.
Definition enum_value (ce : cond_env) (s : enum_state) (value : str) : res str :=
  if is_nil value then genNumToStringS (en_default s)
  else match stoll value with
       | Some v => genNumToStringS v
       | None =>
           match assoc value (en_values s) with
           | Some v => genNumToStringS (v_value v)
           | None =>
               match split_last_dot value with
               | None => Ok value
               | Some (ref, name) =>
                   match ce_find ce ref with
                   | Some (FEnum _ o) =>
                       match assoc name (en_values o) with Some v => genNumToStringS (v_value v) | None => Ok value end
                   | _ => Ok value
                   end
               end
           end
       end.
Fixpoint prep_value (n : nat) (ce : cond_env) (f : field) (acc value : str) : res str :=
  match n with
  | O => UB
  | S n' =>
      match acc_leaf f acc with
      | Some (FInt _ s) =>
          if is_nil value then int_text (i_type s) (i_default s)
          else match (if is_unsigned_type (i_type s) then option_map (fun v => Ok (genNumToStringU v 0)) (stoull value)
                      else option_map genNumToStringS (stoll value)) with
               | Some r => r
               | None =>
                   match assoc value (i_specials s) with
                   | Some v => int_text (i_type s) (v_value v)
                   | None =>
                       let (first, rest) := first_seg value in
                       let '(ref, sub) :=
                         match value, rest with
                         | c :: _, Some r => if ch_eqb c "@" then
                                               let (a, b) := first_seg r in (first ++ L "." ++ a, rest_or_nil b)
                                             else (first, r)
                         | _, _ => (value, [])
                         end in
                       match ce_find ce ref with
                       | None => Ok unexpected
                       | Some g =>
                           v <- prep_value n' ce g [] sub ;;
                           if is_nil v || str_eqb v unexpected then Ok unexpected
                           else prep_value n' ce f acc v
                       end
                   end
               end
      | Some (FEnum _ s) => enum_value ce s value
      | Some (FString _ _ _) => Ok (string_value ce value)
      | _ => Ok value
      end
  end.

(** Operands: lib/src/parse/ParseOptCondImpl.cpp 71-113 *)
Inductive operand_type := OInvalid | OValue | OInterface | OSibling.
Inductive acc_mode := MNone | MSize | MExists.
Definition operand_info (s : str) : operand_type * acc_mode * str :=
  match s with
  | [] => (OInvalid, MNone, [])
  | c :: r =>
      if negb (ch_eqb c c_sibling) && negb (ch_eqb c c_interface) then (OValue, MNone, s)
      else
        let t := if ch_eqb c c_sibling then OSibling else OInterface in
        match r with
        | d :: r' => if ch_eqb d "#" then (t, MSize, r')
                     else if ch_eqb d "?" then (t, MExists, r') else (t, MNone, r)
        | [] => (t, MNone, [])
        end
  end.

(** commsVerifyInnerRef: CommsField.cpp 349-356, CommsBundleField.cpp 530-538, CommsBitfieldField.cpp 319-327,
    CommsRefField.cpp 197-201, CommsSetField.cpp 413-417, CommsIntField.cpp 460-465,
    CommsEnumField.cpp 538-543; the default is CommsField.cpp 728-731 (false). *)
Fixpoint verify_inner (f : field) (acc : str) : bool :=
  if is_nil acc then true
  else match f with
       | FBitfield _ _ ms _ | FBundle _ ms _ _ =>
           let (first, rest) := first_seg acc in
           (fix go (l : list field) : bool :=
              match l with
              | [] => false
              | m :: l' => if str_eqb (f_name m) first then verify_inner m (rest_or_nil rest) else go l'
              end) ms
       | FRef _ _ t => verify_inner t acc
       | FSet _ s => match assoc acc (s_bits s) with Some _ => true | None => false end
       | FInt _ s => match assoc acc (i_specials s) with Some _ => true | None => false end
       | FEnum _ s => match assoc acc (en_values s) with Some _ => true | None => false end
       | _ => false
       end.
(** The field at the top of an access path, and whether it is a member of an interface
    (CommsOptionalField.cpp 62-98, 147-161; elements around it: the message or the interface). *)
Fixpoint find_interface_field (l : list (list field)) (first rest : str) : option field :=
  match l with
  | [] => None
  | fs :: l' =>
      match find (fun f => str_eqb (f_name f) first && verify_inner f rest) fs with
      | Some f => Some f
      | None => find_interface_field l' first rest
      end
  end.
Record operand := mkOp { op_field : field; op_up : list velem; op_iface : bool; op_acc : str }.
Definition interface_elem : velem := mkVE EInterface 0 4294967295 false.
Definition find_operand (ce : cond_env) (up : list velem) (siblings : list field) (t : operand_type) (access : str) : option operand :=
  let (first, rest) := first_seg access in
  match t with
  | OInterface =>
      option_map (fun f => mkOp f [interface_elem] true (rest_or_nil rest))
        (if is_nil access then None else find_interface_field (ce_interfaces ce) first (rest_or_nil rest))
  | OSibling => option_map (fun f => mkOp f up false (rest_or_nil rest)) (find_named first siblings)
  | _ => None
  end.
(** 37-60 commsGetFieldAccessPrefixInternal, commsGetFieldTypePrefixInternal *)
Definition op_prefix (o : operand) : str :=
  (if op_iface o then L "Base::transportField_" else L "field_") ++ genAccessName (f_name (op_field o)) ++ L "()".
Definition op_type_prefix (o : operand) : str :=
  (if op_iface o then L "Base::TransportField_" else L "Field_") ++ genAccessName (f_name (op_field o)).
Definition op_checks (ge : gen_env) (o : operand) : list str := opt_checks ge (op_up o) (op_field o) (op_acc o) (op_prefix o).
Definition op_value (ge : gen_env) (o : operand) : str := op_prefix o ++ value_access ge (op_up o) (op_field o) (op_acc o) [].
Definition and_nl : str := L " &&" ++ [nl].
Definition or_nl : str := L " ||" ++ [nl].

(** 736-749, 775-788, 823-836: the checks in front of the comparison *)
Definition with_checks (checks : list str) (expr : str) : res str :=
  if is_nil checks then Ok expr
  else genProcessTemplate (L "#^#COND#$# &&" ++ [nl] ++ L "(#^#EXPR#$#)")
         [(L "COND", genStrListToString checks and_nl []); (L "EXPR", expr)] false.
Definition cpp_op (op : str) : str := if str_eqb op (L "=") then L "==" else op.
(** 719-750 *)
Definition cond_value_comp (ce : cond_env) (o : operand) (op value : str) : res str :=
  let ge := ce_gen ce in
  v <- prep_value (S (length value)) ce (op_field o) (op_acc o) value ;;
  let ty := cast_type ge (op_up o) (op_field o) (op_acc o) [] in
  let v := if is_nil ty then v
           else L "static_cast<typename " ++ op_type_prefix o ++ L "::" ++ ty ++ L ">(" ++ v ++ L ")" in
  with_checks (op_checks ge o) (op_value ge o ++ L " " ++ op ++ L " " ++ v).
(** 752-789; the type of the left operand is always taken as that of a sibling *)
Definition cond_field_comp (ge : gen_env) (l : operand) (op : str) (r : operand) : res str :=
  let ty := cast_type ge (op_up l) (op_field l) (op_acc l) [] in
  let v := if is_nil ty then op_value ge r
           else L "static_cast<typename Field_" ++ genAccessName (f_name (op_field l)) ++ L "::" ++ ty ++ L ">(" ++
                op_value ge r ++ L ")" in
  with_checks (op_checks ge l ++ op_checks ge r) (op_value ge l ++ L " " ++ op ++ L " " ++ v).
(** 791-837 *)
Definition cond_size_comp (ge : gen_env) (o : operand) (op value : str) : res str :=
  let size := op_prefix o ++ size_access ge (op_up o) (op_field o) (op_acc o) [] in
  expr <- (if str_eqb op (L "==") && str_eqb value (L "0") then genStrReplace size (L ".size()") (L ".empty()")
           else if str_eqb op (L "!=") && str_eqb value (L "0")
                then (s <- genStrReplace size (L ".size()") (L ".empty()") ;; Ok (L "!" ++ s))
                else Ok (size ++ L " " ++ op ++ L " static_cast<std::size_t>(" ++ value ++ L ")")) ;;
  with_checks (op_checks ge o) expr.
(** 839-866 *)
Definition cond_exists_comp (ge : gen_env) (o : operand) (op : str) : res str :=
  let checks := op_checks ge o in
  if is_nil checks then Ok []
  else if is_nil op then Ok (genStrListToString checks and_nl [])
  else genProcessTemplate (L "!(#^#COND#$#)") [(L "COND", genStrListToString checks and_nl [])] false.
(** 144-283: an expression *)
Definition cond_expr_text (ce : cond_env) (up : list velem) (siblings : list field) (left op0 right : str) : res str :=
  let ge := ce_gen ce in
  let op := cpp_op op0 in
  let '(lt, lm, lacc) := operand_info left in
  let '(rt, rm, racc) := operand_info right in
  match lt with
  | OInvalid =>
      match find_operand ce up siblings rt racc with
      | None => Ok []
      | Some r =>
          match rm with
          | MExists => cond_exists_comp ge r op
          | _ => Ok (genStrListToString (op_checks ge r ++ [op ++ op_value ge r]) and_nl [])
          end
      end
  | _ =>
      match find_operand ce up siblings lt lacc with
      | None => Ok []
      | Some l =>
          match lm with
          | MSize => cond_size_comp ge l op racc
          | _ =>
              match rt with
              | OValue => cond_value_comp ce l op racc
              | _ =>
                  match find_operand ce up siblings rt racc with
                  | None => Ok []
                  | Some r => cond_field_comp ge l op r
                  end
              end
          end
      end
  end.

(** 285-336: the template of a list of conditions and its replacements.  [count]: number of
    conditions with a text so far; the operator follows unless the condition is the
    last one of the list. *)
Fixpoint list_template (op : str) (count : Z) (l : list str) : str * replacements :=
  match l with
  | [] => ([], [])
  | v :: l' =>
      if is_nil v then list_template op count l'
      else
        let name := L "COND" ++ dec_str (count + 1) in
        let (t, r) := list_template op (count + 1) l' in
        ((if 0 <? count then L " " else []) ++ L "(#^#" ++ name ++ L "#$#)" ++
         (if is_nil l' then [] else op) ++ t, (name, v) :: r)
  end.
(** 138-341 commsDslCondToString *)
Fixpoint cond_text (ce : cond_env) (up : list velem) (siblings : list field) (brackets : bool) (c : cond) : res str :=
  match c with
  | CExpr l op r => cond_expr_text ce up siblings l op r
  | CList isAnd cs =>
      vs <- (fix go (cs : list cond) : res (list str) :=
               match cs with
               | [] => Ok []
               | c :: cs' => v <- cond_text ce up siblings true c ;; rest <- go cs' ;; Ok (v :: rest)
               end) cs ;;
      let (t, r) := list_template (if isAnd then and_nl else or_nl) 0 vs in
      let t := if brackets then L "(" ++ t ++ L ")" else t in
      genProcessTemplate t r false
  end.

(** 443-482 commsDefBundledRefreshFuncBodyImpl *)
Definition refresh_templ : str :=
  L "auto mode = comms::field::OptionalMode::Missing;" ++ [nl] ++
  L "if (#^#COND#$#) {" ++ [nl] ++
  L "    mode = comms::field::OptionalMode::Exists;" ++ [nl] ++
  L "}" ++ [nl; nl] ++
  L "if (field_#^#NAME#$#()#^#FIELD_ACC#$#.getMode() == mode) {" ++ [nl] ++
  L "    return false;" ++ [nl] ++
  L "}" ++ [nl; nl] ++
  L "field_#^#NAME#$#()#^#FIELD_ACC#$#.setMode(mode);" ++ [nl] ++
  L "return true;" ++ [nl].
Definition refresh_body (ce : cond_env) (up : list velem) (siblings : list field) (f : field) (c : cond) : res str :=
  t <- cond_text ce up siblings false c ;;
  if is_nil t then Ok []
  else genProcessTemplate refresh_templ
         ([(L "NAME", genAccessName (f_name f)); (L "COND", t)] ++
          (if version_optional (ce_gen ce) up f then [(L "FIELD_ACC", L ".field()")] else [])) false.
(** 586-604 commsCheckCondSupportedInternal with 100-128: conditions on interface
    fields are only supported for direct members of messages *)
Definition cond_supported (message_member : bool) (c : cond) : bool :=
  message_member || negb (has_iface_ref c).
