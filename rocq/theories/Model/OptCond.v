(** Model of lib/src/parse/ParseOptCondImpl.cpp and ParseAliasImpl.cpp. *)
From Verif.Model Require Import Base Common Xml Units Field FieldCommon IntField EnumField SetField FloatField.

Fixpoint starts_with (op s : str) : bool :=
  match op, s with
  | [], _ => true
  | x :: op', y :: s' => ch_eqb x y && starts_with op' s'
  | _ :: _, [] => false
  end.
Definition is_sp (c : ascii) : bool := ch_eqb c " ".

(** 177-245 parseCheckComparison, the search for the operator: text before and after its first
    occurrence that does not follow a backslash; [Err] when the expression starts
    with the operator. [acc]: the characters passed so far, last one first. *)
Fixpoint find_op (op acc s : str) : res (option (str * str)) :=
  match s with
  | [] => Ok None
  | c :: s' =>
      if starts_with op s then
        match acc with
        | [] => Err
        | p :: _ => if ch_eqb p "\"%char then find_op op (c :: acc) s'
                    else Ok (Some (rev acc, skipn (length op) s))
        end
      else find_op op (c :: acc) s'
  end.
(** does the text begin with '$', or with '%' when interface references are supported *)
Definition deref_ok (e : env) (s : str) : bool :=
  match s with
  | c :: _ => ch_eqb c c_sibling || (ch_eqb c c_interface && interface_refs_supported e)
  | [] => false
  end.
(** 177-245 parseCheckComparison *)
Definition check_comparison (e : env) (expr op : str) : res (option cond) :=
  r <- find_op op [] expr ;;
  match r with
  | None => Ok None
  | Some (l, rr) =>
      let left := drop_while_end is_sp l in
      let right := drop_while is_sp rr in
      _ <- guard (negb (is_nil left) && negb (is_nil right)) ;;
      _ <- guard (deref_ok e left) ;;
      Ok (Some (CExpr left op right))
  end.
(** 247-316 parseCheckBool *)
Definition check_bool (e : env) (expr : str) : res cond :=
  match expr with
  | [] => Err
  | c :: r =>
      if ch_eqb c c_sibling || ch_eqb c c_interface
      then (_ <- guard (deref_ok e expr) ;; Ok (CExpr [] [] expr))
      else if ch_eqb c "!" then
        let v := drop_while is_sp r in
        _ <- guard (deref_ok e v) ;; Ok (CExpr [] (L "!") v)
      else Err
  end.
(** 118-137 ParseOptCondExprImpl::parse *)
Fixpoint try_ops (e : env) (expr : str) (ops : list str) : res cond :=
  match ops with
  | [] => check_bool e expr
  | op :: ops' =>
      r <- check_comparison e expr op ;;
      match r with Some c => Ok c | None => try_ops e expr ops' end
  end.
Definition cond_ops : list str := [L "!="; L ">="; L "<="; L "="; L ">"; L "<"].
Definition cond_expr (e : env) (expr : str) : res cond :=
  _ <- guard (negb (is_nil expr)) ;; try_ops e expr cond_ops.

(** 660-731 ParseOptCondListImpl::parse; [condStr]: name of the single condition elements *)
Fixpoint cond_list (e : env) (condStr : str) (n : node) : res cond :=
  match n with
  | Elem name _ children =>
      isAnd <- (if str_eqb name (L "and") then Ok true
                else if str_eqb name (L "or") then Ok false else Err) ;;
      cs <- (fix go (l : list node) : res (list cond) :=
               match l with
               | [] => Ok []
               | c :: l' =>
                   if is_elem c then
                     x <- (if str_eqb (n_name c) condStr
                           then (s <- parseNodeValue c true ;; cond_expr e s)
                           else if str_eqb (n_name c) (L "and") || str_eqb (n_name c) (L "or")
                                then cond_list e condStr c else Err) ;;
                     xs <- go l' ;;
                     Ok (x :: xs)
                   else go l'
               end) children ;;
      _ <- guard (Nat.leb 2 (length cs)) ;;
      Ok (CList isAnd cs)
  | _ => Err
  end.

(** 160-165, 747-755 parseHasInterfaceReferenceImpl *)
Definition is_iface (s : str) : bool := match s with c :: _ => ch_eqb c c_interface | [] => false end.
Fixpoint has_iface_ref (c : cond) : bool :=
  match c with
  | CExpr l _ r => is_iface l || is_iface r
  | CList _ cs => existsb has_iface_ref cs
  end.

(** ParseFieldImpl.cpp 270-286 parseIsComparableToValue and the per kind
    parseIsComparableToValueImpl (Int.cpp 414-418, Enum.cpp 156-160, Set.cpp 145-173,
    Float.cpp 226-230, String.cpp 190-215, Ref.cpp 138-142; others Field.cpp 563-566) *)
Definition string_comparable (e : env) (v : str) : bool :=
  match v with
  | c :: r => if ch_eqb c c_extref
              then match e_find e r with Some g => kind_eqb (f_kind g) KString | None => false end
              else true
  | [] => true
  end.
Fixpoint comparable_value (e : env) (f : field) (v : str) : bool :=
  match f_sem f with
  | SemVersion | SemLength => match parseStrToIntMax v with Some _ => true | None => false end
  | _ =>
      match f with
      | FInt _ s => int_comparable e s v
      | FEnum _ s => enum_comparable e s v
      | FSet _ _ => set_comparable e v
      | FFloat _ s => float_comparable e s v
      | FString _ _ _ => string_comparable e v
      | FRef _ _ t => comparable_value e t v
      | _ => false
      end
  end.

(** std::stoll(text): decimal, text after the digits ignored *)
Definition stoll10 (s : str) : option Z :=
  let (neg, r) := sign (skip_space s) in
  match digits 10 None r with
  | None => None
  | Some m => let v := if neg then - m else m in
              if (int_min <=? v) && (v <=? int_max) then Some v else None
  end.
(** 625-635 parseVerifyValidSizeValueComparison *)
Definition size_value_ok (v : str) : bool := match stoll10 v with Some _ => true | None => false end.
Definition is_ref_type (t : ref_type) (i : ref_info) : bool :=
  match t, ri_type i with
  | RField, RField | RInner, RInner | RSize, RSize | RExists, RExists => true
  | _, _ => false
  end.

(** 318-375: one operand; [right] starts with '$' or '%' *)
Definition verify_single (e : env) (fields : list field) (right : str) : res unit :=
  match right with
  | c :: r =>
      if ch_eqb c c_sibling then
        i <- sibling_ref fields r ;;
        match i with
        | None => Err
        | Some i =>
            match ri_type i with
            | RInner => Ok tt
            | RExists => guard (exists_cond_supported e)
            | _ => Err
            end
        end
      else (* 377-404 parseVerifyInterfaceBitCheck *)
        l <- e_iface e r ;;
        guard (existsb (fun i => is_ref_type RInner i && kind_eqb (f_kind (ri_field i)) KSet) l)
  | [] => Err
  end.
(** 417-508 parseVerifySiblingComparison *)
Definition verify_sibling_comparison (e : env) (fields : list field) (left right : str) : res unit :=
  i <- sibling_ref fields (tl left) ;;
  match i with
  | None => Err
  | Some li =>
      match ri_type li with
      | RSize => _ <- guard (size_cond_supported e) ;; guard (size_value_ok right)
      | RField =>
          match right with
          | c :: r =>
              if ch_eqb c c_sibling then
                j <- sibling_ref fields r ;;
                match j with
                | Some rj => guard (is_ref_type RField rj && comparable_fields (ri_field li) (ri_field rj))
                | None => Err
                end
              else if ch_eqb c c_interface then
                l <- e_iface e r ;;
                guard (existsb (fun rj => is_ref_type RField rj && comparable_fields (ri_field li) (ri_field rj)) l)
              else guard (comparable_value e (ri_field li) right)
          | [] => guard (comparable_value e (ri_field li) right)
          end
      | _ => Err
      end
  end.
(** 510-623 parseVerifyInterfaceComparison *)
Definition verify_iface_comparison (e : env) (fields : list field) (left right : str) : res unit :=
  ls <- e_iface e (tl left) ;;
  if existsb (is_ref_type RSize) ls
  then (_ <- guard (size_cond_supported e) ;; guard (size_value_ok right))
  else
    let ls := filter (is_ref_type RField) ls in
    _ <- guard (negb (is_nil ls)) ;;
    match right with
    | c :: r =>
        if ch_eqb c c_sibling then
          j <- sibling_ref fields r ;;
          match j with
          | Some rj => guard (is_ref_type RField rj &&
                              existsb (fun li => comparable_fields (ri_field li) (ri_field rj)) ls)
          | None => Err
          end
        else if ch_eqb c c_interface then
          l <- e_iface e r ;;
          guard (existsb (fun li => existsb (fun rj =>
                   is_ref_type RField rj && comparable_fields (ri_field li) (ri_field rj)) l) ls)
        else guard (existsb (fun li => comparable_value e (ri_field li) right) ls)
    | [] => guard (existsb (fun li => comparable_value e (ri_field li) right) ls)
    end.
(** 151-158, 406-415 ParseOptCondExprImpl::parseVerifyImpl; 737-745 for lists *)
Fixpoint cond_verify (e : env) (fields : list field) (c : cond) : res unit :=
  match c with
  | CExpr l _ r =>
      match l with
      | [] => verify_single e fields r
      | d :: _ => if ch_eqb d c_sibling then verify_sibling_comparison e fields l r
                  else verify_iface_comparison e fields l r
      end
  | CList _ cs =>
      (fix go (cs : list cond) : res unit :=
         match cs with [] => Ok tt | c :: cs' => _ <- cond_verify e fields c ;; go cs' end) cs
  end.

(** ** ParseAliasImpl.cpp *)
(** 62-91 parse, 182-222 *)
Definition alias_parse (e : env) (n : node) : res alias :=
  p <- parseChildrenAsProps n [L "name"; L "description"; L "field"] true (parseNodeProps n) ;;
  name <- string_prop e p (L "name") true false [] ;;
  _ <- guard (parseIsValidName name) ;;
  descr <- string_prop e p (L "description") false true [] ;;
  f <- string_prop e p (L "field") true false [] ;;
  match f with
  | c :: r =>
      _ <- guard (ch_eqb c c_sibling) ;;
      _ <- guard (parseIsValidRefName r) ;;
      Ok (mkAlias name descr r)
  | [] => Err
  end.
(** 93-180 parseVerifyAlias: names equal up to the case of the first letter *)
Definition same_member_name (a b : str) : bool :=
  match a, b with
  | x :: a', y :: b' => ch_eqb (tolower x) (tolower y) && str_eqb a' b'
  | _, _ => false
  end.
Definition alias_verify (als : list alias) (fields : list field) (a : alias) : bool :=
  negb (existsb (fun f => same_member_name (a_name a) (f_name f)) fields) &&
  negb (existsb (fun b => same_member_name (a_name a) (a_name b)) als) &&
  let (first, rest) := first_seg (a_fieldName a) in
  match find_named first fields with
  | None => false
  | Some f => match rest with None => true | Some r => verify_aliased f r end
  end.
