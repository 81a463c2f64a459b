(** What the generated C++ says: fixed width integer types, the options of the COMMS
    library that describe an integer field and the checks of a generated valid()
    function. Independent of the model's functions. *)
From Coq Require Import Ascii String ZArith List.
Import ListNotations.
From Verif.Model Require Import Base Field.
From Verif.Spec Require Import Texts Ints GenSpec.
Open Scope Z_scope.

(** ** Types *)
Definition signed_cpp : list (txt * Z) :=
  [(T "std::int8_t", 8); (T "std::int16_t", 16); (T "std::int32_t", 32); (T "std::int64_t", 64)].
Definition unsigned_cpp : list (txt * Z) :=
  [(T "std::uint8_t", 8); (T "std::uint16_t", 16); (T "std::uint32_t", 32); (T "std::uint64_t", 64)].
(** the C++ type holds the number *)
Definition cpp_holds (ty : txt) (v : Z) : Prop :=
  (exists n, In (ty, n) signed_cpp /\ signed_bits n v) \/ (exists n, In (ty, n) unsigned_cpp /\ unsigned_bits n v).
(** conversion to the type: the number of the type which is equal modulo its width *)
Definition converted (ty : txt) (x y : Z) : Prop :=
  cpp_holds ty y /\ forall n, In (ty, n) (signed_cpp ++ unsigned_cpp) -> (x - y) mod 2 ^ n = 0.

(** ** Options *)
Definition an_option (name : txt) (args : list txt) : txt :=
  T "comms::option::def::" ++ name ++ T "<" ++ join (T ", ") args ++ T ">".
Definition plain_option (name : txt) : txt := T "comms::option::def::" ++ name.
(** the values an option declares valid *)
Inductive accepts : txt -> Z -> Prop :=
| accepts_value a v : constant a v -> accepts (an_option (T "ValidNumValue") [a]) v
| accepts_range a b x y v : constant a x -> constant b y -> x <= v <= y ->
    accepts (an_option (T "ValidNumValueRange") [a; b]) v
| accepts_big_value a v : constant a v -> 0 <= v < 2 ^ 64 -> accepts (an_option (T "ValidBigUnsignedNumValue") [a]) v
| accepts_big_range a b x y v : constant a x -> constant b y -> x <= v <= y -> 0 <= x -> y < 2 ^ 64 ->
    accepts (an_option (T "ValidBigUnsignedNumValueRange") [a; b]) v.
(** the options that make values invalid which no option declares valid *)
Definition restricts (o : txt) : Prop :=
  o = plain_option (T "InvalidByDefault") \/
  exists name args, o = an_option name args /\
    In name [T "ValidNumValue"; T "ValidNumValueRange"; T "ValidBigUnsignedNumValue"; T "ValidBigUnsignedNumValueRange"].
(** the valid() of the library class with these options *)
Definition base_valid (opts : list txt) (v : Z) : Prop :=
  (exists o, In o opts /\ accepts o v) \/ (forall o, In o opts -> ~ restricts o).

(** serialisation: number of bytes (least, most) of a class of the given value type *)
Definition length_option (o : txt) (lo hi : Z) : Prop :=
  (exists a, o = an_option (T "FixedLength") [a] /\ constant a lo /\ lo = hi) \/
  (exists a, o = an_option (T "FixedLength") [a; T "false"] /\ constant a lo /\ lo = hi) \/
  (exists a b, o = an_option (T "VarLength") [a; b] /\ constant a lo /\ constant b hi).
Definition bit_length_option (o : txt) (bits : Z) : Prop :=
  exists a, (o = an_option (T "FixedBitLength") [a] \/ o = an_option (T "FixedBitLength") [a; T "false"]) /\ constant a bits.
Definition about_length (o : txt) : Prop :=
  (exists lo hi, length_option o lo hi) \/ exists b, bit_length_option o b.
(** the length a class with value type [ty] and options [opts] is serialised with *)
Definition serialised_length (ty : txt) (opts : list txt) (lo hi : Z) : Prop :=
  (exists o, In o opts /\ length_option o lo hi /\ forall o', In o' opts -> about_length o' -> o' = o) \/
  ((forall o, In o opts -> ~ about_length o) /\ In (ty, 8 * lo) (signed_cpp ++ unsigned_cpp) /\ lo = hi).

(** default value of the class *)
Definition default_option (o : txt) (v : Z) : Prop :=
  exists a, (o = an_option (T "DefaultNumValue") [a] \/ o = an_option (T "DefaultBigUnsignedNumValue") [a]) /\ constant a v.
Definition default_value (opts : list txt) (v : Z) : Prop :=
  (exists o, In o opts /\ default_option o v /\ forall o' w, In o' opts -> default_option o' w -> o' = o) \/
  ((forall o w, In o opts -> ~ default_option o w) /\ v = 0).

(** ** Checks of a generated valid() *)
Inductive atom_true (ty : txt) (v w : Z) : txt -> Prop :=
| atom_since a x : constant a x -> x <= w -> atom_true ty v w (T "(" ++ a ++ T " <= Base::getVersion())")
| atom_until a x : constant a x -> w < x -> atom_true ty v w (T "(Base::getVersion() < " ++ a ++ T ")")
| atom_eq a x : constant a x -> converted ty x v -> atom_true ty v w (T "(static_cast<ValueType>(" ++ a ++ T ") == Base::getValue())")
| atom_from a x y : constant a x -> converted ty x y -> y <= v ->
    atom_true ty v w (T "(static_cast<ValueType>(" ++ a ++ T ") <= Base::getValue())")
| atom_to a x y : constant a x -> converted ty x y -> v <= y ->
    atom_true ty v w (T "(Base::getValue() <= static_cast<ValueType>(" ++ a ++ T "))").
(** the generated valid(): the library's one or one of the conjunctions *)
Definition generated_valid (ty : txt) (opts : list txt) (checks : list (list txt)) (v w : Z) : Prop :=
  base_valid opts v \/ exists conj, In conj checks /\ Forall (atom_true ty v w) conj.

(** a name that is opened as namespace and closed again, around the rest *)
Inductive nested : list txt -> txt -> txt -> Prop :=
| nested_nil : nested [] [] []
| nested_cons n ns b e : nested ns b e ->
    nested (n :: ns) (T "namespace " ++ n ++ [newline] ++ T "{" ++ [newline; newline] ++ b)
                     (e ++ T "} // namespace " ++ n ++ [newline; newline]).

(** ** Single options *)
(** the option with this name is there once, with exactly these arguments *)
Definition option_says (opts : list txt) (name : txt) (args : list txt) : Prop :=
  forall a, In (an_option name [a]) opts <-> a = join (T ", ") args.
Definition option_absent (opts : list txt) (name : txt) : Prop := forall a, ~ In (an_option name [a]) opts.
(** an option that is not given says the same as one with these values *)
Definition option_numbers (opts : list txt) (name : txt) (neutral values : list Z) : Prop :=
  (exists args, Forall2 constant args values /\ option_says opts name args) \/
  (option_absent opts name /\ values = neutral).
