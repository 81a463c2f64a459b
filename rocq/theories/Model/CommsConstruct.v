(** Model of the code generated from the construct conditions of a message: app/commsdsl2comms/src/CommsMessage.cpp. *)
From Verif.Model Require Import Base Common Units Field FieldCommon OptCond GenUtil GenComms CommsInt CommsCond.

(** CommsMessage.cpp 63-80 commsFindInterfaceFieldInternal *)
Definition find_iface (ce : cond_env) (ref : str) : option (field * str) :=
  let (first, rest) := first_seg ref in
  if is_nil ref then None
  else option_map (fun f => (f, rest_or_nil rest)) (find_interface_field (ce_interfaces ce) first (rest_or_nil rest)).
(** 82-85 commsInterfaceFieldAccStrInternal *)
Definition iface_acc (f : field) : str := L "transportField_" ++ genAccessName (f_name f) ++ L "()".
(** CommsField.cpp 289-296 commsFieldAccessStr *)
Definition field_access (ce : cond_env) (f : field) (acc : str) : res str :=
  match split_last_dot (value_access (ce_gen ce) [interface_elem] f acc (iface_acc f)) with Some (a, _) => Ok a | None => UB end.
(** CommsMessage.cpp 116-117 *)
Definition bit_templ : str := L "Base::#^#ACC#$#.setBitValue_#^#NAME#$#(#^#VAL#$#);" ++ [nl].
(** 87-126 commsUpdateConstructBoolInternal (the code added) *)
Definition construct_bool (ce : cond_env) (op right : str) : res (list str) :=
  match split_last_dot right with
  | None => Ok []
  | Some (path, bit) =>
      match find_iface ce (tl path) with
      | None => Ok []
      | Some (f, acc) =>
          a <- field_access ce f acc ;;
          t <- genProcessTemplate bit_templ [(L "ACC", a); (L "NAME", bit); (L "VAL", if is_nil op then L "true" else L "false")] false ;;
          Ok [t]
      end
  end.
(** 168-169 *)
Definition value_templ : str := L "Base::#^#ACC#$#.value() = static_cast<typename Base::#^#CAST#$#>(#^#VAL#$#);" ++ [nl].
(** 128-179 commsUpdateConstructExprInternal *)
Definition construct_expr (ce : cond_env) (left op right : str) : res (list str) :=
  if is_nil left then construct_bool ce op right
  else
    match find_iface ce (tl left) with
    | None => Ok []
    | Some (f, acc) =>
        a <- field_access ce f acc ;;
        let cast := cast_type (ce_gen ce) [interface_elem] f acc (L "TransportField_" ++ genAccessName (f_name f) ++ L "::") in
        let add (v : str) : res (list str) :=
          t <- genProcessTemplate value_templ [(L "ACC", a); (L "CAST", cast); (L "VAL", v)] false ;; Ok [t] in
        match right with
        | [] => UB
        | c :: r =>
            if ch_eqb c c_interface then
              match find_iface ce r with
              | None => Ok []
              | Some (g, racc) => add (value_access (ce_gen ce) [interface_elem] g racc (iface_acc g))
              end
            else (v <- prep_value (S (length right)) ce f acc right ;; add v)
        end
    end.
(** 181-197 commsUpdateConstructCodeInternal *)
Fixpoint construct_code (ce : cond_env) (c : cond) : res (list str) :=
  match c with
  | CExpr l op r => construct_expr ce l op r
  | CList _ cs =>
      (fix go (cs : list cond) : res (list str) :=
         match cs with
         | [] => Ok []
         | c :: cs' => x <- construct_code ce c ;; y <- go cs' ;; Ok (x ++ y)
         end) cs
  end.
(** 1754-1769 commsPrepareConstructCodeInternal *)
Definition internal_construct (ce : cond_env) (c : cond) : res str :=
  code <- construct_code ce c ;; Ok (genStrListToString code [] []).
(** 834-839 *)
Definition constructor_templ : str :=
  L "#^#CLASS_NAME#$##^#SUFFIX#$#()" ++ [nl] ++
  L "{" ++ [nl] ++
  L "    #^#CODE#$#" ++ [nl] ++
  L "}" ++ [nl] ++
  L "#^#CUSTOM#$#" ++ [nl].
(** 828-870 commsDefConstructInternal for a message without injected code *)
Definition def_construct (ce : cond_env) (name : str) (c : cond) : res str :=
  code <- internal_construct ce c ;;
  if is_nil code then Ok []
  else genProcessTemplate constructor_templ [(L "CLASS_NAME", genClassName name); (L "CODE", code); (L "CUSTOM", [])] false.
