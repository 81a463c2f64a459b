(** Conditions on fields of the interface in generated code: whether a message may be read. *)
From Coq Require Import Ascii String ZArith List Bool.
Import ListNotations.
From Verif.Model Require Import Base Field GenComms CommsInt CommsCond.
From Verif.Spec Require Import Texts Ints GenSpec CppSpec CondCode CondTyping ConstructCode.
Open Scope Z_scope.

(** ** Meaning in the schema *)
(** numbers are compared with numbers the field can hold (see [suits]); [s]: the values of the fields of the interface *)
Inductive imeans (s : fields) : cond -> bool -> Prop :=
| im_bit f bit bs x : word f -> word bit -> s f = Some (VBits bs) -> first_named bit bs = Some x -> imeans s (CExpr [] [] (T "%" ++ f ++ T "." ++ bit)) x
| im_not_bit f bit bs x : word f -> word bit -> s f = Some (VBits bs) -> first_named bit bs = Some x -> imeans s (CExpr [] (T "!") (T "%" ++ f ++ T "." ++ bit)) (negb x)
| im_num f op r ty names z n o : word f -> s f = Some (VNum ty names z) -> number_text names r n -> suits ty r n -> written dsl_ops op o ->
    imeans s (CExpr (T "%" ++ f) op r) (num_holds o z n)
| im_and cs bs : cs <> [] -> Z.of_nat (length cs) < 2 ^ 32 -> Forall2 (imeans s) cs bs -> imeans s (CList true cs) (forallb (fun b => b) bs)
| im_or cs bs : cs <> [] -> Z.of_nat (length cs) < 2 ^ 32 -> Forall2 (imeans s) cs bs -> imeans s (CList false cs) (existsb (fun b => b) bs).

(** ** Generated expressions *)
Inductive iexp := IBit (f bit : txt) | INum (f op lit : txt) | INot (e : iexp) | IParen (e : iexp) | IAll (isAnd : bool) (es : list iexp).
Fixpoint print_i (e : iexp) : txt :=
  match e with
  | IBit f bit => T "Base::transportField_" ++ f ++ T "().getBitValue_" ++ bit ++ T "()"
  | INum f op lit => T "Base::transportField_" ++ f ++ T "().getValue() " ++ op ++ T " static_cast<typename Base::TransportField_" ++ f ++ T "::ValueType>(" ++ lit ++ T ")"
  | INot e => T "!" ++ print_i e
  | IParen e => T "(" ++ print_i e ++ T ")"
  | IAll isAnd es => join (sep isAnd) (map print_i es)
  end.
Definition unary_i (e : iexp) : Prop := match e with IBit _ _ | IParen _ => True | _ => False end.
Definition no_list_i (e : iexp) : Prop := match e with IAll _ _ => False | _ => True end.
Inductive ivalue (s : fields) : iexp -> bool -> Prop :=
| iv_bit f n bs bit b : the_field s f n (VBits bs) -> first_named bit bs = Some b -> ivalue s (IBit f bit) b
| iv_num f n ty names z op o lit m y : the_field s f n (VNum ty names z) -> written cpp_ops op o -> constant lit m -> converted ty m y ->
    ivalue s (INum f op lit) (num_holds o z y)
| iv_not e b : ivalue s e b -> unary_i e -> ivalue s (INot e) (negb b)
| iv_paren e b : ivalue s e b -> ivalue s (IParen e) b
| iv_all es bs : Forall2 (ivalue s) es bs -> es <> [] -> Forall no_list_i es -> ivalue s (IAll true es) (forallb (fun b => b) bs)
| iv_any es bs : Forall2 (ivalue s) es bs -> es <> [] -> Forall no_list_i es -> ivalue s (IAll false es) (existsb (fun b => b) bs).
(** the start of the generated read function: the message is given up unless the expression holds *)
Definition print_check (e : iexp) : txt :=
  T "bool validRead = " ++ print_i e ++ T "; if (!validRead) { return comms::ErrorStatus::InvalidMsgData; }".
(** lists of conditions are not empty, and not absurdly long *)
Inductive listed : cond -> Prop :=
| listed_expr l op r : listed (CExpr l op r)
| listed_list isAnd cs : cs <> [] -> Z.of_nat (length cs) < 2 ^ 32 -> Forall listed cs -> listed (CList isAnd cs).
