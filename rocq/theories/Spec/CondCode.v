(** Meaning of a condition of the schema on the current values of the fields, and the C++
    expressions generated for conditions with their values on the generated classes.
    Independent of the model's functions. *)
From Coq Require Import Ascii String ZArith List Bool.
Import ListNotations.
From Verif.Model Require Import Base Field.
From Verif.Spec Require Import Texts Ints GenSpec CppSpec.
Open Scope Z_scope.

(** ** Values *)
(** what a field currently holds: a number (with its C++ type and the names of special
    values), the bits of a set, a text, a sequence (data, list) of some size, members,
    an optional field (whether it exists, name and value of the wrapped field), a field that
    exists only in some versions. *)
Inductive dval :=
| VNum (ty : txt) (names : list (txt * Z)) (z : Z)
| VBits (bits : list (txt * bool))
| VText (s : txt)
| VSeq (n : Z)
| VMembers (ms : list (txt * dval))
| VOptional (present : bool) (name : txt) (v : dval)
| VVersioned (present : bool) (v : dval)
| VOther.
Fixpoint first_named {A} (n : txt) (l : list (txt * A)) : option A :=
  match l with
  | [] => None
  | (m, v) :: l' => if list_eq_dec ascii_dec m n then Some v else first_named n l'
  end.
(** [reach v path pres w]: following the names [path] from [v] leads to [w]; [pres]: every
    optional field on the way exists *)
Inductive reach : dval -> list txt -> bool -> dval -> Prop :=
| reach_num ty names z : reach (VNum ty names z) [] true (VNum ty names z)
| reach_bits bs : reach (VBits bs) [] true (VBits bs)
| reach_text s : reach (VText s) [] true (VText s)
| reach_seq n : reach (VSeq n) [] true (VSeq n)
| reach_members ms : reach (VMembers ms) [] true (VMembers ms)
| reach_optional b n v : reach (VOptional b n v) [] b (VOptional b n v)
| reach_wrapped b n v p b' w : reach v p b' w -> reach (VOptional b n v) (n :: p) (b && b') w
| reach_versioned b v p b' w : reach v p b' w -> reach (VVersioned b v) p (b && b') w
| reach_member ms n v p b w : first_named n ms = Some v -> reach v p b w -> reach (VMembers ms) (n :: p) b w.
Definition from (env : list (txt * dval)) (path : list txt) (pres : bool) (w : dval) : Prop :=
  reach (VMembers env) path pres w /\ path <> [].

(** ** Conditions of the schema *)
(** "$name.name", "$#name.name", "$?name.name" *)
Definition refers (s mark : txt) (path : list txt) : Prop :=
  s = "$"%char :: mark ++ join (T ".") path /\ path <> [] /\ Forall word path.
Inductive rel := REq | RNe | RGe | RLe | RGt | RLt.
Definition written (tab : list (txt * rel)) (s : txt) (r : rel) : Prop := In (s, r) tab.
Definition dsl_ops := [(T "=", REq); (T "!=", RNe); (T ">=", RGe); (T "<=", RLe); (T ">", RGt); (T "<", RLt)].
Definition cpp_ops := [(T "==", REq); (T "!=", RNe); (T ">=", RGe); (T "<=", RLe); (T ">", RGt); (T "<", RLt)].
Definition num_holds (r : rel) (x y : Z) : bool :=
  match r with REq => x =? y | RNe => negb (x =? y) | RGe => y <=? x | RLe => x <=? y | RGt => y <? x | RLt => x <? y end.
(** texts compare as std::string: byte by byte *)
Fixpoint text_less (a b : txt) : bool :=
  match a, b with
  | _, [] => false
  | [], _ :: _ => true
  | x :: a', y :: b' => if (N_of_ascii x <? N_of_ascii y)%N then true
                        else if (N_of_ascii y <? N_of_ascii x)%N then false else text_less a' b'
  end.
Definition text_holds (r : rel) (x y : txt) : bool :=
  let eq := if list_eq_dec ascii_dec x y then true else false in
  match r with
  | REq => eq | RNe => negb eq | RLt => text_less x y | RGt => text_less y x
  | RLe => negb (text_less y x) | RGe => negb (text_less x y)
  end.
(** a number, or the name of one of the named values of the field *)
Definition number_text (names : list (txt * Z)) (s : txt) (n : Z) : Prop :=
  denotes s n \/ (identifier s /\ first_named s names = Some n).
Definition size_of (v : dval) (n : Z) : Prop :=
  v = VSeq n \/ exists s, v = VText s /\ n = Z.of_nat (length s).
(** a text that needs no escaping, neither in the schema nor in C++ *)
Definition plain_char (c : ascii) : Prop := ~ In (N_of_ascii c) [10; 34; 92; 94; 36; 37]%N.

(** [means env c b]: on the values [env] of the fields next to it the condition [c] is [b] *)
Inductive means (env : list (txt * dval)) : cond -> bool -> Prop :=
| means_bit r path bit pres bs x : refers r [] (path ++ [bit]) -> from env path pres (VBits bs) ->
    first_named bit bs = Some x -> means env (CExpr [] [] r) (pres && x)
| means_not_bit r path bit pres bs x : refers r [] (path ++ [bit]) -> from env path pres (VBits bs) ->
    first_named bit bs = Some x -> means env (CExpr [] (T "!") r) (pres && negb x)
| means_exists r path pres w : refers r (T "?") path -> from env path pres w -> means env (CExpr [] [] r) pres
| means_not_exists r path pres w : refers r (T "?") path -> from env path pres w ->
    means env (CExpr [] (T "!") r) (negb pres)
| means_num l op r path pres ty names z n o : refers l [] path -> from env path pres (VNum ty names z) ->
    number_text names r n -> written dsl_ops op o -> means env (CExpr l op r) (pres && num_holds o z n)
| means_fields l op r path pres ty names z path' pres' ty' names' z' o :
    refers l [] path -> from env path pres (VNum ty names z) ->
    refers r [] path' -> from env path' pres' (VNum ty' names' z') -> written dsl_ops op o ->
    means env (CExpr l op r) (pres && pres' && num_holds o z z')
| means_text l op r path pres s o : refers l [] path -> from env path pres (VText s) ->
    r <> [] -> Forall plain_char r -> written dsl_ops op o -> means env (CExpr l op r) (pres && text_holds o s r)
| means_size l op r path pres w n k o : refers l (T "#") path -> from env path pres w -> size_of w n ->
    numeral 10 r k -> written dsl_ops op o -> means env (CExpr l op r) (pres && num_holds o n k)
| means_and cs bs : Forall2 (means env) cs bs -> means env (CList true cs) (forallb (fun b => b) bs)
| means_or cs bs : Forall2 (means env) cs bs -> means env (CList false cs) (existsb (fun b => b) bs).

(** ** Generated expressions *)
(** the accessor generated for a member starts with a small letter *)
Definition upper_letters := T "ABCDEFGHIJKLMNOPQRSTUVWXYZ".
Definition lower_letters := T "abcdefghijklmnopqrstuvwxyz".
Definition accessor (name acc : txt) : Prop :=
  (exists i c c' r, name = c :: r /\ acc = c' :: r /\ nth_error upper_letters i = Some c /\ nth_error lower_letters i = Some c') \/
  (exists c r, name = c :: r /\ acc = name /\ ~ In c upper_letters).
(** objects: field_x(), obj.field_x(), obj.field() *)
Inductive acc := AField (x : txt) | AMember (a : acc) (x : txt) | AInner (a : acc).
Fixpoint print_acc (a : acc) : txt :=
  match a with
  | AField x => T "field_" ++ x ++ T "()"
  | AMember a x => print_acc a ++ T ".field_" ++ x ++ T "()"
  | AInner a => print_acc a ++ T ".field()"
  end.
(** their classes: Field_x, Class::Field_x, Class::Field *)
Fixpoint print_class (a : acc) : txt :=
  match a with
  | AField x => T "Field_" ++ x
  | AMember a x => print_class a ++ T "::Field_" ++ x
  | AInner a => print_class a ++ T "::Field"
  end.
(** the member with this accessor; there must not be another one *)
Definition accessed (ms : list (txt * dval)) (x : txt) (v : dval) : Prop :=
  exists n, In (n, v) ms /\ accessor n x /\ forall n' v', In (n', v') ms -> accessor n' x -> (n', v') = (n, v).
Inductive obj (env : list (txt * dval)) : acc -> dval -> Prop :=
| obj_field x v : accessed env x v -> obj env (AField x) v
| obj_member a ms x v : obj env a (VMembers ms) -> accessed ms x v -> obj env (AMember a x) v
| obj_wrapped a b n v : obj env a (VOptional b n v) -> obj env (AInner a) v
| obj_versioned a b v : obj env a (VVersioned b v) -> obj env (AInner a) v.

Inductive cexp :=
| XExists (a : acc) | XBit (a : acc) (n : txt)
| XNum (a : acc) (op : txt) (cls : acc) (lit : txt)
| XFields (a : acc) (op : txt) (cls b : acc)
| XText (a : acc) (op s : txt)
| XSize (a : acc) (op lit : txt) | XEmpty (a : acc)
| XNot (e : cexp) | XParen (e : cexp) | XAll (isAnd : bool) (es : list cexp).
Definition sep (isAnd : bool) : txt := (if isAnd then T " &&" else T " ||") ++ [newline].
Fixpoint print (e : cexp) : txt :=
  match e with
  | XExists a => print_acc a ++ T ".doesExist()"
  | XBit a n => print_acc a ++ T ".getBitValue_" ++ n ++ T "()"
  | XNum a op cls lit => print_acc a ++ T ".getValue() " ++ op ++ T " static_cast<typename " ++ print_class cls ++
                         T "::ValueType>(" ++ lit ++ T ")"
  | XFields a op cls b => print_acc a ++ T ".getValue() " ++ op ++ T " static_cast<typename " ++ print_class cls ++
                          T "::ValueType>(" ++ print_acc b ++ T ".getValue())"
  | XText a op s => print_acc a ++ T ".getValue() " ++ op ++ T " " ++ [ascii_of_nat 34] ++ s ++ [ascii_of_nat 34]
  | XSize a op lit => print_acc a ++ T ".getValue().size() " ++ op ++ T " static_cast<std::size_t>(" ++ lit ++ T ")"
  | XEmpty a => print_acc a ++ T ".getValue().empty()"
  | XNot e => T "!" ++ print e
  | XParen e => T "(" ++ print e ++ T ")"
  | XAll isAnd es => join (sep isAnd) (map print es)
  end.

(** "!" binds to what follows directly, "&&" and "||" separate everything else; lists are only
    nested in parentheses. *)
Definition unary (e : cexp) : Prop :=
  match e with XExists _ | XBit _ _ | XEmpty _ | XParen _ => True | _ => False end.
Definition no_list (e : cexp) : Prop := match e with XAll _ _ => False | _ => True end.
(** [value env e b]: on these objects the C++ expression has the value [b].  Numbers are
    compared after conversion to the value type of the class named in the cast. *)
Inductive value (env : list (txt * dval)) : cexp -> bool -> Prop :=
| value_optional a b n v : obj env a (VOptional b n v) -> value env (XExists a) b
| value_versioned a b v : obj env a (VVersioned b v) -> value env (XExists a) b
| value_bit a n bs b : obj env a (VBits bs) -> first_named n bs = Some b -> value env (XBit a n) b
| value_num a op o cls lit ty names z ty' names' z' n y : obj env a (VNum ty names z) -> obj env cls (VNum ty' names' z') ->
    written cpp_ops op o -> constant lit n -> converted ty' n y -> value env (XNum a op cls lit) (num_holds o z y)
| value_fields a op o cls b ty names z ty' names' z' ty'' names'' n y : obj env a (VNum ty names z) ->
    obj env cls (VNum ty' names' z') -> obj env b (VNum ty'' names'' n) -> written cpp_ops op o -> converted ty' n y ->
    value env (XFields a op cls b) (num_holds o z y)
| value_text a op o s t : obj env a (VText t) -> Forall plain_char s -> written cpp_ops op o ->
    value env (XText a op s) (text_holds o t s)
| value_size a op o lit v k n : obj env a v -> size_of v n -> constant lit k -> 0 <= k < 2 ^ 64 -> written cpp_ops op o ->
    value env (XSize a op lit) (num_holds o n k)
| value_empty a v n : obj env a v -> size_of v n -> value env (XEmpty a) (n =? 0)
| value_not e b : value env e b -> unary e -> value env (XNot e) (negb b)
| value_paren e b : value env e b -> value env (XParen e) b
| value_all es bs : Forall2 (value env) es bs -> es <> [] -> Forall no_list es ->
    value env (XAll true es) (forallb (fun b => b) bs)
| value_any es bs : Forall2 (value env) es bs -> es <> [] -> Forall no_list es ->
    value env (XAll false es) (existsb (fun b => b) bs).

(** layout: blanks at the beginning of a line do not matter *)
Fixpoint unindent (at_start : bool) (s : txt) : txt :=
  match s with
  | [] => []
  | c :: r => if at_start && (if ascii_dec c " " then true else false) then unindent true r
              else c :: unindent (if ascii_dec c newline then true else false) r
  end.
(** the text is this expression, up to layout *)
Definition code (t : txt) (e : cexp) : Prop := unindent false t = print e.

(** the function that brings the mode of the optional field [o] in line with a condition *)
Definition refresh_code (o cond : txt) : txt :=
  join [newline] [
    T "auto mode = comms::field::OptionalMode::Missing;";
    T "if (" ++ cond ++ T ") {";
    T "mode = comms::field::OptionalMode::Exists;";
    T "}";
    T "if (" ++ o ++ T ".getMode() == mode) {";
    T "return false;";
    T "}";
    o ++ T ".setMode(mode);";
    T "return true;"].

(** ** What the generated code needs *)
(** accessors are unique among the members *)
Inductive accessible : dval -> Prop :=
| acc_num ty names z : accessible (VNum ty names z)
| acc_bits bs : accessible (VBits bs)
| acc_text s : accessible (VText s)
| acc_seq n : accessible (VSeq n)
| acc_optional b n v : accessible v -> accessible (VOptional b n v)
| acc_versioned b v : accessible v -> accessible (VVersioned b v)
| acc_other : accessible VOther
| acc_members ms : Forall (fun m => accessible (snd m)) ms ->
    (forall n v n' v' x, In (n, v) ms -> In (n', v') ms -> accessor n x -> accessor n' x -> (n', v') = (n, v)) ->
    accessible (VMembers ms).
(** some field on the way is optional *)
Inductive through_optional : dval -> list txt -> Prop :=
| through_here b n v : through_optional (VOptional b n v) []
| through_wrapped b n v p : through_optional (VOptional b n v) (n :: p)
| through_versioned b v p : through_optional (VVersioned b v) p
| through_member ms n v p : first_named n ms = Some v -> through_optional v p -> through_optional (VMembers ms) (n :: p).
(** the condition compares with numbers of the type of the field (and not with 2^63 or its
    negation, nor with larger numbers unless by name), sizes with numbers without
    leading zeros, and asks for the existence of fields that are optional in the generated code *)
Definition suits (ty : txt) (s : txt) (n : Z) : Prop :=
  cpp_holds ty n /\ - 2 ^ 63 < n /\ n <> 2 ^ 63 /\ (n < 2 ^ 63 \/ identifier s).
Inductive supported_cond (env : list (txt * dval)) : cond -> Prop :=
| supported_expr l op r :
    (forall path pres ty names z n, refers l [] path -> from env path pres (VNum ty names z) -> number_text names r n -> suits ty r n) ->
    (forall path pres ty names z path' pres' ty' names' z', refers l [] path -> from env path pres (VNum ty names z) ->
       refers r [] path' -> from env path' pres' (VNum ty' names' z') -> cpp_holds ty z') ->
    (forall path k, refers l (T "#") path -> numeral 10 r k -> k < 2 ^ 63 /\ (hd_error r = Some "0"%char -> r = T "0")) ->
    (forall path, refers r (T "?") path -> through_optional (VMembers env) path) ->
    supported_cond env (CExpr l op r)
| supported_list isAnd cs : cs <> [] -> Z.of_nat (length cs) < 2 ^ 32 -> Forall (supported_cond env) cs ->
    supported_cond env (CList isAnd cs).
