(** Specification of integer wire types and of versioned sets of values, written
    without any function of the model (only its data types). *)
From Coq Require Import ZArith List.
Import ListNotations.
From Verif.Model Require Import Base Field.
From Verif.Spec Require Import Texts.
Open Scope Z_scope.

(** how many bytes / which sign a type name stands for *)
Definition type_bytes (t : int_type) : Z :=
  match t with
  | Int8 | Uint8 => 1 | Int16 | Uint16 => 2 | Int32 | Uint32 => 4 | Int64 | Uint64 => 8
  | Intvar | Uintvar => 10 (* base-128 groups needed for 64 bits *)
  end.
Definition signed_type (t : int_type) : Prop := In t [Int8; Int16; Int32; Int64; Intvar].
Definition unsigned_type (t : int_type) : Prop := In t [Uint8; Uint16; Uint32; Uint64; Uintvar].
Definition variable_type (t : int_type) : Prop := In t [Intvar; Uintvar].

(** values of a [b]-bit two's complement / unsigned integer *)
Definition signed_bits (b v : Z) : Prop := - 2 ^ (b - 1) <= v < 2 ^ (b - 1).
Definition unsigned_bits (b v : Z) : Prop := 0 <= v < 2 ^ b.

(** values the C++ value type itself can hold *)
Definition value_bits (t : int_type) : Z :=
  match t with
  | Int8 | Uint8 => 8 | Int16 | Uint16 => 16 | Int32 | Uint32 => 32 | _ => 64
  end.
Definition type_values (t : int_type) (v : Z) : Prop :=
  (signed_type t -> signed_bits (value_bits t) v) /\ (unsigned_type t -> unsigned_bits (value_bits t) v).

(** number of value bits on the wire: every byte of a variable length integer
    carries 7 of them and values have at most 64 bits *)
Definition wire_bits (t : int_type) (bytes bits : Z) : Z :=
  match t with Intvar | Uintvar => Z.min 64 (7 * bytes) | _ => bits end.
Definition wire_values (t : int_type) (bytes bits v : Z) : Prop :=
  (signed_type t -> signed_bits (wire_bits t bytes bits) v) /\
  (unsigned_type t -> unsigned_bits (wire_bits t bytes bits) v).

(** A number stored in an [intmax_t] member stands for itself, except for the 64 bit
    unsigned types where it stands for the equal uintmax_t modulo 2^64. *)
Definition stands_for (t : int_type) (stored v : Z) : Prop :=
  match t with Uint64 | Uintvar => v = stored mod 2 ^ 64 | _ => v = stored end.

(** [reported_range t lo hi v]: [v] is between the stored limits *)
Definition reported_range (t : int_type) (lo hi v : Z) : Prop :=
  exists l h, stands_for t lo l /\ stands_for t hi h /\ l <= v <= h.

(** the version [w] is in [[since, depr)] *)
Definition at_version (since depr w : Z) : Prop := since <= w < depr.

(** [v] is allowed at version [w] by a list of ranges *)
Definition allowed (t : int_type) (l : list vrange) (v w : Z) : Prop :=
  exists r, In r l /\ reported_range t (r_min r) (r_max r) v /\ at_version (r_since r) (r_depr r) w.

(** 64 bit value domain of a type *)
Definition domain64 (t : int_type) (v : Z) : Prop :=
  (signed_type t -> signed_bits 64 v) /\ (unsigned_type t -> unsigned_bits 64 v).
(** types of at most 32 bits *)
Definition small_type (t : int_type) : Prop := In t [Int8; Uint8; Int16; Uint16; Int32; Uint32].
(** the range of [w]-bit values moved by [- so] stays strictly inside the 64 bit domain, or
    the wire already uses all 64 bits *)
Definition offset_fits (t : int_type) (w so : Z) : Prop :=
  (signed_type t -> w = 64 \/ (2 ^ (w - 1) - so < 2 ^ 63 /\ - 2 ^ 63 < - 2 ^ (w - 1) - so)) /\
  (unsigned_type t -> (w = 64 \/ 2 ^ w - so < 2 ^ 64) /\ so < 2 ^ w).

(** types whose stored numbers stand for unsigned 64 bit values *)
Definition big_type (t : int_type) : Prop := In t [Uint64; Uintvar].

Definition reference_text (s : txt) : Prop := dotted s \/ exists s', s = "@"%char :: s' /\ dotted s'.

(** [value_text t refs specials s v]: the text [s] given for a value of an integer of
    type [t] means the stored number [v]: the name of a special value, else a
    reference to a value defined elsewhere ([refs]: number and whether it is an
    unsigned value above 2^63), else a literal. *)
Inductive value_text (t : int_type) (refs : txt -> option (Z * bool)) (specials : list (txt * Z)) (s : txt)
  : Z -> Prop :=
| vt_special v : identifier s -> In (s, v) specials -> value_text t refs specials s v
| vt_ref v huge : ~ In s (map fst specials) -> reference_text s -> refs s = Some (v, huge) ->
    (huge = true -> big_type t) -> (v < 0 -> huge = true \/ signed_type t) -> value_text t refs specials s v
| vt_literal v : ~ reference_text s -> ~ big_type t -> denotes s v -> - 2 ^ 63 <= v < 2 ^ 63 ->
    value_text t refs specials s v
| vt_big_literal z v : ~ reference_text s -> big_type t -> denotes s z -> Z.abs z < 2 ^ 64 ->
    - 2 ^ 63 <= v < 2 ^ 63 -> v mod 2 ^ 64 = z mod 2 ^ 64 -> value_text t refs specials s v.
