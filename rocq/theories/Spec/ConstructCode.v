(** Statements of the generated default constructor of a message which set the fields of the interface, and the conditions they are to establish. *)
From Coq Require Import Ascii String ZArith List Bool.
Import ListNotations.
From Verif.Model Require Import Base Field GenComms CommsInt CommsCond.
From Verif.Spec Require Import Texts Ints GenSpec CppSpec CondCode CondTyping.
Open Scope Z_scope.

(** ** Code *)
(** [f] is the accessor of a field of the interface *)
Inductive cstmt := SetBit (f bit : txt) (b : bool) | SetNum (f lit : txt).
Definition print_c (s : cstmt) : txt :=
  match s with
  | SetBit f bit b => T "Base::transportField_" ++ f ++ T "().setBitValue_" ++ bit ++ (if b then T "(true);" else T "(false);")
  | SetNum f lit => T "Base::transportField_" ++ f ++ T "().value() = static_cast<typename Base::TransportField_" ++ f ++ T "::ValueType>(" ++ lit ++ T ");"
  end.
Definition print_cs (l : list cstmt) : txt := join [newline] (map print_c l).
(** the default constructor of the class [cls] *)
Definition print_constructor (cls : txt) (l : list cstmt) : txt := cls ++ T "() { " ++ print_cs l ++ T " }".
(** the values of the fields of the interface, by their names in the schema *)
Definition fields := txt -> option dval.
Definition update (s : fields) (n : txt) (v : dval) : fields := fun m => if list_eq_dec ascii_dec m n then Some v else s m.
Definition set_bit (bit : txt) (b : bool) (bs : list (txt * bool)) : list (txt * bool) :=
  map (fun x => if list_eq_dec ascii_dec (fst x) bit then (fst x, b) else x) bs.
(** the field with this accessor; no other one may have it *)
Definition the_field (s : fields) (f n : txt) (v : dval) : Prop :=
  s n = Some v /\ accessor n f /\ forall n' v', s n' = Some v' -> accessor n' f -> n' = n.
(** execution *)
Inductive sets : fields -> cstmt -> fields -> Prop :=
| sets_bit s f n bs bit b : the_field s f n (VBits bs) -> first_named bit bs <> None -> sets s (SetBit f bit b) (update s n (VBits (set_bit bit b bs)))
| sets_num s f n ty names z lit m y : the_field s f n (VNum ty names z) -> constant lit m -> converted ty m y ->
    sets s (SetNum f lit) (update s n (VNum ty names y)).
Inductive sets_all : fields -> list cstmt -> fields -> Prop :=
| sets_none s : sets_all s [] s
| sets_next s s' s'' c cs : sets s c s' -> sets_all s' cs s'' -> sets_all s (c :: cs) s''.

(** ** Conditions *)
(** "%name.bit" and "!%name.bit" ask for the value of a bit, "%name = number" for the value of a number *)
Inductive asked := AskBit (f bit : txt) (b : bool) | AskNum (f : txt) (text : txt).
Inductive asks : cond -> list asked -> Prop :=
| asks_bit f bit : asks (CExpr [] [] (T "%" ++ f ++ T "." ++ bit)) [AskBit f bit true]
| asks_not_bit f bit : asks (CExpr [] (T "!") (T "%" ++ f ++ T "." ++ bit)) [AskBit f bit false]
| asks_num f r : asks (CExpr (T "%" ++ f) (T "=") r) [AskNum f r]
| asks_all cs ls : Forall2 asks cs ls -> asks (CList true cs) (concat ls).
Definition satisfied (s : fields) (a : asked) : Prop :=
  match a with
  | AskBit f bit b => exists bs, s f = Some (VBits bs) /\ first_named bit bs = Some b
  | AskNum f r => exists ty names n, s f = Some (VNum ty names n) /\ number_text names r n
  end.
(** the statement is about the field or bit asked for *)
Definition is_for (a : asked) (st : cstmt) : Prop :=
  match a with
  | AskBit f bit b => exists x, accessor f x /\ st = SetBit x bit b
  | AskNum f r => exists x lit, accessor f x /\ st = SetNum x lit
  end.
(** nothing is asked for twice *)
Definition what (a : asked) : txt * option txt := match a with AskBit f bit _ => (f, Some bit) | AskNum f _ => (f, None) end.
(** what is asked makes sense: the field has this bit or can hold this number *)
Definition meaningful (s : fields) (a : asked) : Prop :=
  match a with
  | AskBit f bit _ => word f /\ word bit /\ exists bs, s f = Some (VBits bs) /\ first_named bit bs <> None
  | AskNum f r => word f /\ exists ty names z n, s f = Some (VNum ty names z) /\ number_text names r n /\ suits ty r n
  end.
(** ** Interfaces *)
(** the field called [n] of the interfaces of the schema *)
Definition is_member (ce : cond_env) (n : txt) (fld : field) : Prop :=
  (exists fs, In fs (ce_interfaces ce) /\ In fld fs) /\ f_name fld = n /\ forall fs g, In fs (ce_interfaces ce) -> In g fs -> f_name g = n -> g = fld.
(** the values belong to fields of the interfaces, which are told apart by their accessors *)
Definition holds_fields (ce : cond_env) (s : fields) : Prop :=
  (forall n v, s n = Some v -> exists fld, is_member ce n fld /\ typed (ce_gen ce) [interface_elem] fld v) /\
  forall n v n' v' f, s n = Some v -> s n' = Some v' -> accessor n f -> accessor n' f -> n = n'.
