(** Generated set classes: default value, reserved bits and the check of valid
    values.  Independent of the model's functions. *)
From Coq Require Import Ascii String ZArith List Bool Sorted.
Import ListNotations.
From Verif.Model Require Import Base Field SetField.
From Verif.Spec Require Import Texts Ints Versions IntSpec GenSpec CppSpec CondCode BodySpec.
Open Scope Z_scope.

(** the bits declared with an index *)
Definition declared_bit (s : set_state) (k : Z) (n : txt) (b : bit_info) : Prop := In (n, b) (s_bits s) /\ b_idx b = k.
(** number of bits of the field: as asked for in a bitfield, otherwise those of its bytes; the
    class of the library holds the value in at most 64 bits *)
Definition bits_of (inBitfield : bool) (s : set_state) (n : Z) : Prop :=
  n = Z.min 64 (if inBitfield then s_bitLength s else 8 * s_length s).

(** ** Default value *)
(** the default of a bit: as declared, or what the field says about all others *)
Definition default_bit (s : set_state) (k : Z) (v : bool) : Prop :=
  (exists n b, declared_bit s k n b /\ v = b_default b) \/ ((forall n b, ~ declared_bit s k n b) /\ v = s_defaultBit s).

(** ** Reserved bits *)
(** the option of comms::field::BitmaskValue: the bits of the mask are those of the value *)
Definition reserved_option (o : txt) (mask value : Z) : Prop :=
  exists a b, o = an_option (T "BitmaskReservedBits") [a; b] /\ constant a mask /\ constant b value.
(** the valid() of the library class with these options *)
Definition bitmask_valid (opts : list txt) (v : Z) : Prop :=
  forall o mask value, In o opts -> reserved_option o mask value -> Z.land v mask = value.
(** what a bit may be, whatever the version: one which is not reserved is free, a reserved one has
    its reserved value, and one which is not declared the value the field says *)
Definition allowed_bit (s : set_state) (k : Z) (v : bool) : Prop :=
  (exists n b, declared_bit s k n b /\ b_reserved b = false) \/
  (exists n b, declared_bit s k n b /\ v = b_reservedValue b) \/
  ((forall n b, ~ declared_bit s k n b) /\ v = s_reservedBit s).
Definition same_reserved (s : set_state) : Prop :=
  forall k n b n' b', declared_bit s k n b -> declared_bit s k n' b' -> b_reservedValue b = b_reservedValue b'.
(** the same in version [w] of the code generated for version [ver]: later bits are not yet declared *)
Definition known_bit (ver : Z) (s : set_state) (k : Z) (n : txt) (b : bit_info) : Prop := declared_bit s k n b /\ b_since b <= ver.
Definition allowed_at (ver : Z) (s : set_state) (w k : Z) (v : bool) : Prop :=
  (exists n b, known_bit ver s k n b /\ present_at (b_since b) (b_depr b) true w /\ b_reserved b = false) \/
  (exists n b, known_bit ver s k n b /\ v = b_reservedValue b) \/
  ((forall n b, ~ known_bit ver s k n b) /\ v = s_reservedBit s).

(** a bit which is not part of all versions of the field *)
Definition passing (since depr : Z) (b : bit_info) : Prop := since < b_since b \/ b_depr b < depr.
(** such bits are not reserved; bits which share an index are all of this kind, have the same
    reserved value, and the earlier one does not outlive the later one *)
Definition orderly_bits (since depr : Z) (s : set_state) : Prop :=
  (forall k n b, declared_bit s k n b -> 0 <= b_since b /\ b_depr b <= never /\ (passing since depr b -> b_reserved b = false)) /\
  (forall k n b n' b', declared_bit s k n b -> declared_bit s k n' b' -> n <> n' ->
     passing since depr b /\ b_reservedValue b = b_reservedValue b' /\ (b_since b < b_since b' -> b_depr b <= b_depr b')).

(** ** Code of valid() *)
Inductive test :=
| Before (a : txt)                (* the version is before *)
| From (a : txt)                  (* the version is not before *)
| Differs (mask value : txt)      (* the bits of the mask are not those of the value *)
| And (p q : test)
| Or (p q : test).
Fixpoint test_code (p : test) : txt :=
  match p with
  | Before a => T "(Base::getVersion() < " ++ a ++ T ")"
  | From a => T "(" ++ a ++ T " <= Base::getVersion())"
  | Differs m r => T "((Base::getValue() & " ++ m ++ T ") != " ++ r ++ T ")"
  | And p q => test_code p ++ T " && " ++ test_code q
  | Or p q => T "(" ++ test_code p ++ T " || " ++ test_code q ++ T ")"
  end.
(** [test_value v w p b]: for the value [v] and version [w] the test yields [b] *)
Inductive test_value (v w : Z) : test -> bool -> Prop :=
| tv_before a x : constant a x -> test_value v w (Before a) (w <? x)
| tv_from a x : constant a x -> test_value v w (From a) (x <=? w)
| tv_differs m r x y : constant m x -> constant r y -> test_value v w (Differs m r) (negb (Z.land v x =? y))
| tv_and p q a b : test_value v w p a -> test_value v w q b -> test_value v w (And p q) (a && b)
| tv_or p q a b : test_value v w p a -> test_value v w q b -> test_value v w (Or p q) (a || b).
(** statements: "return false;" and "if" *)
Inductive stmt := ReturnFalse | If (p : test) (body : list stmt).
Definition paren (p : test) : txt := match p with And _ _ => T "(" ++ test_code p ++ T ")" | _ => test_code p end.
Fixpoint stmt_code (s : stmt) : txt :=
  match s with
  | ReturnFalse => T "return false; "
  | If p body => T "if " ++ paren p ++ T " { " ++ concat (map stmt_code body) ++ T "} "
  end.
(** whether "return false;" is reached *)
Inductive returns (v w : Z) : list stmt -> bool -> Prop :=
| ret_end : returns v w [] false
| ret_now l : returns v w (ReturnFalse :: l) true
| ret_if p body l a b c : test_value v w p a -> returns v w body b -> returns v w l c -> returns v w (If p body :: l) ((a && b) || c).
Definition reject_code (l : list stmt) : txt :=
  T "if (!Base::valid()) { return false; } " ++ concat (map stmt_code l) ++ T "return true; ".
(** valid() with such a body, or without one *)
Definition set_valid (opts : list txt) (l : list stmt) (v w : Z) : Prop := bitmask_valid opts v /\ returns v w l false.
