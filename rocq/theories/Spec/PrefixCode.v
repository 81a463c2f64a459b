(** The code generated around strings, data and lists whose length, number of elements or
    length of an element is the value of another field: the statements with their effects.
    Independent of the model's functions. *)
From Coq Require Import Ascii String ZArith List Bool.
Import ListNotations.
From Verif.Model Require Import Base Field.
From Verif.Spec Require Import Texts Ints GenSpec CppSpec CondCode.
Open Scope Z_scope.

(** ** Before such a field is read *)
(** which of its properties come from which field of the schema (path of names, empty:
    none), and the function of the class that is told *)
Definition prefixes (f : field) : list (txt * txt) :=
  match f with
  | FString _ s _ => [(st_detached s, T "forceReadLength")]
  | FData _ s _ => [(d_detached s, T "forceReadLength")]
  | FList _ s _ _ _ _ _ =>
      [(l_detCount s, T "forceReadElemCount"); (l_detLength s, T "forceReadLength"); (l_detElemLength s, T "forceReadElemLength")]
  | _ => []
  end.
(** [informed env own p calls]: what has to be said about [p]: nothing if the property does not
    come from another field, nothing if the field itself ([own]) or the other field is missing, otherwise
    the current number in the other field (as std::size_t) *)
Definition path_text (s : txt) (path : list txt) : Prop := s = join (T ".") path /\ path <> [] /\ Forall word path.
Inductive informed (env : list (txt * dval)) (own : bool) : txt * txt -> list (txt * Z) -> Prop :=
| informed_none func : informed env own ([], func) []
| informed_call s func path pres ty names z : path_text s path -> from env path pres (VNum ty names z) ->
    informed env own (s, func) (if own && pres then [(func, z mod 2 ^ 64)] else []).
(** the statements "x.func(static_cast<std::size_t>(a.getValue()));", possibly under a condition *)
Inductive pstmt := PCall (x : acc) (func : txt) (a : acc) | PIf (e : cexp) (s : pstmt).
Fixpoint print_p (s : pstmt) : txt :=
  match s with
  | PCall x func a => print_acc x ++ T "." ++ func ++ T "(static_cast<std::size_t>(" ++ print_acc a ++ T ".getValue()));"
  | PIf e s => T "if (" ++ print e ++ T ") {" ++ print_p s ++ T "}"
  end.
Definition print_ps (l : list pstmt) : txt := join [newline] (map print_p l).
Definition sequence (w : dval) : Prop := match w with VText _ | VSeq _ => True | _ => False end.
(** [calls env s l]: executing [s] on these objects calls these functions *)
Inductive calls (env : list (txt * dval)) : pstmt -> list (acc * txt * Z) -> Prop :=
| calls_call x func a w ty names z : obj env x w -> sequence w -> obj env a (VNum ty names z) ->
    calls env (PCall x func a) [(x, func, z mod 2 ^ 64)]
| calls_if e s l : value env e true -> calls env s l -> calls env (PIf e s) l
| calls_skip e s : value env e false -> calls env (PIf e s) [].

Definition calls_all (env : list (txt * dval)) (l : list pstmt) (cs : list (acc * txt * Z)) : Prop :=
  exists css, Forall2 (calls env) l css /\ cs = concat css.

(** ** Bringing both in line *)
(** expressions of the generated function *)
Inductive iexp :=
| IVar (v : txt) | IGet (a : acc) | ISize (x : acc) | ILength (x : acc) | IBack (x : acc) | IFirst (x : acc)
| ICast (e : iexp) | IMax (t : txt) | IMin (v w : txt).
Fixpoint print_i (e : iexp) : txt :=
  match e with
  | IVar v => v
  | IGet a => print_acc a ++ T ".getValue()"
  | ISize x => print_acc x ++ T ".value().size()"
  | ILength x => print_acc x ++ T ".length()"
  | IBack x => print_acc x ++ T ".value().back().length()"
  | IFirst x => print_acc x ++ T ".value().empty() ? 0U : " ++ print_acc x ++ T ".value()[0].length()"
  | ICast e => T "static_cast<std::size_t>(" ++ print_i e ++ T ")"
  | IMax t => T "std::numeric_limits<" ++ t ++ T ">::max()"
  | IMin v w => T "std::min(" ++ v ++ T ", " ++ w ++ T ")"
  end.
Inductive bexp := BEq (e e' : iexp) | BLess (v w : txt) | BFirstLess (x : acc) (w : txt).
Definition print_b (b : bexp) : txt :=
  match b with
  | BEq e e' => print_i e ++ T " == " ++ print_i e'
  | BLess v w => v ++ T " < " ++ w
  | BFirstLess x w => T "(" ++ print_acc x ++ T ".value().empty()) || (" ++ print_acc x ++ T ".value()[0].length() < " ++ w ++ T ")"
  end.
Inductive istmt :=
| SAuto (kind v : txt) (e : iexp) | SFlag (kind v : txt) (b : bool) | SUsing (t : txt) (e : iexp)
| SIf (b : bexp) (s : list istmt) | SWhile (b : bexp) (s : list istmt)
| SSet (a : acc) (v : txt) | SResize (x : acc) (v : txt) | SPop (x : acc) | SMinus (v w : txt) | SAssert (b : bexp)
| SReturn (b : bool) | SReturnVar (v : txt) | SBreak | SDoOnce (s : list istmt).
Definition bool_lit (b : bool) : txt := if b then T "true" else T "false".
Fixpoint print_s (s : istmt) : txt :=
  let block (l : list istmt) : txt := T "{" ++ (fix go (l : list istmt) : txt := match l with [] => [] | s :: l' => [newline] ++ print_s s ++ go l' end) l ++ [newline] ++ T "}" in
  match s with
  | SAuto kind v e => kind ++ T " " ++ v ++ T " = " ++ print_i e ++ T ";"
  | SFlag kind v b => kind ++ T " " ++ v ++ T " = " ++ bool_lit b ++ T ";"
  | SUsing t e => T "using " ++ t ++ T " = typename std::decay<decltype(" ++ print_i e ++ T ")>::type;"
  | SIf b l => T "if (" ++ print_b b ++ T ") " ++ block l
  | SWhile b l => T "while (" ++ print_b b ++ T ") " ++ block l
  | SSet a v => print_acc a ++ T ".setValue(" ++ v ++ T ");"
  | SResize x v => print_acc x ++ T ".value().resize(" ++ v ++ T ");"
  | SPop x => print_acc x ++ T ".value().pop_back();"
  | SMinus v w => v ++ T " -= " ++ w ++ T ";"
  | SAssert b => T "COMMS_ASSERT(" ++ print_b b ++ T ");"
  | SReturn b => T "return " ++ bool_lit b ++ T ";"
  | SReturnVar v => T "return " ++ v ++ T ";"
  | SBreak => T "break;"
  | SDoOnce l => T "do " ++ block l ++ T " while (false);"
  end.
Fixpoint print_code (l : list istmt) : txt :=
  match l with [] => [] | s :: l' => print_s s ++ [newline] ++ print_code l' end.

(** the objects: numbers with the type of the value, sequences with the lengths of their
    elements; the local variables, types and flags, the latest declaration first *)
Record istate := mkI {
  nums : acc -> option (txt * Z); seqs : acc -> option (list Z);
  vars : list (txt * (txt * Z)); types : list (txt * txt); flags : list (txt * bool) }.
Definition acc_eq_dec (a b : acc) : {a = b} + {a <> b}.
Proof. decide equality; apply (list_eq_dec ascii_dec). Defined.
Definition upd {A} (f : acc -> option A) (a : acc) (v : A) : acc -> option A :=
  fun b => if acc_eq_dec a b then Some v else f b.
Definition sum (l : list Z) : Z := fold_right Z.add 0 l.
Definition size_t : txt := T "std::size_t".
(** largest number of a type *)
Definition limit (ty : txt) (m : Z) : Prop := cpp_holds ty m /\ forall n, cpp_holds ty n -> n <= m.
(** [ival st e ty z]: the expression has this type and value *)
Inductive ival (st : istate) : iexp -> txt -> Z -> Prop :=
| ival_var v ty z : first_named v (vars st) = Some (ty, z) -> ival st (IVar v) ty z
| ival_get a ty z : nums st a = Some (ty, z) -> ival st (IGet a) ty z
| ival_size x l : seqs st x = Some l -> ival st (ISize x) size_t (Z.of_nat (length l))
| ival_length x l : seqs st x = Some l -> ival st (ILength x) size_t (sum l)
| ival_back x l n : seqs st x = Some (l ++ [n]) -> ival st (IBack x) size_t n
| ival_first_empty x : seqs st x = Some [] -> ival st (IFirst x) size_t 0
| ival_first x n l : seqs st x = Some (n :: l) -> ival st (IFirst x) size_t n
| ival_cast e ty z : ival st e ty z -> ival st (ICast e) size_t (z mod 2 ^ 64)
| ival_max t ty m : first_named t (types st) = Some ty -> limit ty m -> ival st (IMax t) ty m
| ival_min v w x y : first_named v (vars st) = Some (size_t, x) -> first_named w (vars st) = Some (size_t, y) ->
    ival st (IMin v w) size_t (Z.min x y).
Inductive bval (st : istate) : bexp -> bool -> Prop :=
| bval_eq e e' x y : ival st e size_t x -> ival st e' size_t y -> bval st (BEq e e') (x =? y)
| bval_less v w x y : first_named v (vars st) = Some (size_t, x) -> first_named w (vars st) = Some (size_t, y) ->
    bval st (BLess v w) (x <? y)
| bval_empty x w y : seqs st x = Some [] -> first_named w (vars st) = Some (size_t, y) -> bval st (BFirstLess x w) true
| bval_first x w n l y : seqs st x = Some (n :: l) -> first_named w (vars st) = Some (size_t, y) ->
    bval st (BFirstLess x w) (n <? y).
Definition set_num st a v := mkI (upd (nums st) a v) (seqs st) (vars st) (types st) (flags st).
Definition set_seq st x l := mkI (nums st) (upd (seqs st) x l) (vars st) (types st) (flags st).
Definition set_var st v z := mkI (nums st) (seqs st) ((v, (size_t, z)) :: vars st) (types st) (flags st).
Definition add_var st v ty z := mkI (nums st) (seqs st) ((v, (ty, z)) :: vars st) (types st) (flags st).
Definition add_type st t ty := mkI (nums st) (seqs st) (vars st) ((t, ty) :: types st) (flags st).
Definition set_flag st v b := mkI (nums st) (seqs st) (vars st) (types st) ((v, b) :: flags st).
(** how a statement ends: normally, by break, by return, by a failed assertion *)
Inductive outcome := Done | Broke | Returned (b : bool) | Failed.
Inductive exec : istate -> istmt -> istate -> outcome -> Prop :=
| exec_auto st kind v e ty z : ival st e ty z -> exec st (SAuto kind v e) (add_var st v ty z) Done
| exec_flag st kind v b : exec st (SFlag kind v b) (set_flag st v b) Done
| exec_using st t e ty z : ival st e ty z -> exec st (SUsing t e) (add_type st t ty) Done
| exec_if st b l st' o : bval st b true -> exec_all st l st' o -> exec st (SIf b l) st' o
| exec_else st b l : bval st b false -> exec st (SIf b l) st Done
| exec_while st b l st' st'' o : bval st b true -> exec_all st l st' Done -> exec st' (SWhile b l) st'' o ->
    exec st (SWhile b l) st'' o
| exec_while_end st b l : bval st b false -> exec st (SWhile b l) st Done
| exec_set st a v ty z x y : nums st a = Some (ty, z) -> first_named v (vars st) = Some (size_t, x) -> converted ty x y ->
    exec st (SSet a v) (set_num st a (ty, y)) Done
| exec_resize st x v l n : seqs st x = Some l -> first_named v (vars st) = Some (size_t, n) -> n <= Z.of_nat (length l) ->
    exec st (SResize x v) (set_seq st x (firstn (Z.to_nat n) l)) Done
| exec_pop st x l n : seqs st x = Some (l ++ [n]) -> exec st (SPop x) (set_seq st x l) Done
| exec_minus st v w x y : first_named v (vars st) = Some (size_t, x) -> first_named w (vars st) = Some (size_t, y) ->
    exec st (SMinus v w) (set_var st v ((x - y) mod 2 ^ 64)) Done
| exec_assert st b : bval st b true -> exec st (SAssert b) st Done
| exec_assert_fails st b : bval st b false -> exec st (SAssert b) st Failed
| exec_return st b : exec st (SReturn b) st (Returned b)
| exec_return_var st v b : first_named v (flags st) = Some b -> exec st (SReturnVar v) st (Returned b)
| exec_break st : exec st SBreak st Broke
| exec_do st l st' : exec_all st l st' Done -> exec st (SDoOnce l) st' Done
| exec_do_break st l st' : exec_all st l st' Broke -> exec st (SDoOnce l) st' Done
| exec_do_return st l st' b : exec_all st l st' (Returned b) -> exec st (SDoOnce l) st' (Returned b)
| exec_do_fails st l st' : exec_all st l st' Failed -> exec st (SDoOnce l) st' Failed
with exec_all : istate -> list istmt -> istate -> outcome -> Prop :=
| exec_nil st : exec_all st [] st Done
| exec_next st s l st' st'' o : exec st s st' Done -> exec_all st' l st'' o -> exec_all st (s :: l) st'' o
| exec_stop st s l st' o : exec st s st' o -> o <> Done -> exec_all st (s :: l) st' o.
(** [runs code a x z l z' l' updated]: called when the number [a] of type [ty] is [z] and the
    elements of [x] have the lengths [l], the function always ends, leaves the number [z'] and the
    elements [l'], changes nothing else and returns [updated]. *)
Definition runs (code : list istmt) (a x : acc) (ty : txt) (z : Z) (l : list Z) (z' : Z) (l' : list Z) (updated : bool) : Prop :=
  forall st, nums st a = Some (ty, z) -> seqs st x = Some l ->
  (exists st' o, exec_all st code st' o) /\
  forall st' o, exec_all st code st' o -> o = Returned updated /\
    nums st' a = Some (ty, z') /\ seqs st' x = Some l' /\
    (forall b, b <> a -> nums st' b = nums st b) /\ (forall y, y <> x -> seqs st' y = seqs st y).
(** an assertion always fails *)
Definition fails (code : list istmt) (a x : acc) (ty : txt) (z : Z) (l : list Z) : Prop :=
  forall st, nums st a = Some (ty, z) -> seqs st x = Some l ->
  (exists st' o, exec_all st code st' o) /\ forall st' o, exec_all st code st' o -> o = Failed.

(** the elements fit into memory *)
Definition elements (l : list Z) : Prop := Forall (fun n => 0 <= n) l /\ sum l < 2 ^ 63 /\ Z.of_nat (length l) < 2 ^ 63.
(** [l'] is what is left of [l] after as few elements as possible were taken off its end, so that
    the elements need at most [m] bytes *)
Definition fitting (m : Z) (l l' : list Z) : Prop :=
  (exists r, l = l' ++ r) /\ sum l' <= m /\ forall p r, l = p ++ r -> sum p <= m -> (length p <= length l')%nat.
