(** Specification vocabulary for <enum> and <set> fields. *)
From Verif.Model Require Import Base Common Xml Units Field FieldCommon IntField EnumField SetField.
From Verif.Spec Require Import Texts Ints Versions IntSpec.

(** states of accepted <enum> / <set> fields, possibly reusing accepted ones *)
Inductive enum_reachable : enum_state -> Prop :=
| er_fresh e c p n s : env_num_ok e -> enum_parse e c p n None = Ok s -> enum_reachable s
| er_reuse e c p n o s : env_num_ok e -> enum_reachable o -> enum_parse e c p n (Some o) = Ok s ->
    enum_reachable s.
Definition enum_start_ok (old : option enum_state) : Prop :=
  match old with None => True | Some o => enum_reachable o end.

Inductive set_reachable : set_state -> Prop :=
| sr_fresh e c p n s : set_parse e c p n None = Ok s -> set_reachable s
| sr_reuse e c p n o s : set_reachable o -> set_parse e c p n (Some o) = Ok s -> set_reachable s.
Definition set_start_ok (old : option set_state) : Prop :=
  match old with None => True | Some o => set_reachable o end.

(** a text for the value of a bit *)
Definition bit_text (e : env) (s : txt) (b : bool) : Prop :=
  parseStrToBool s = Some b \/
  parseStrToBool s = None /\ (e_dsl e = 0 \/ 2 <= e_dsl e) /\ e_bool e s = Some b.
(** the value given by a (possibly absent or empty) property *)
Definition bit_prop (e : env) (t : option txt) (dflt b : bool) : Prop :=
  match t with None | Some [] => b = dflt | Some x => bit_text e x b end.

(** the versions in which two bits exist have a common element *)
Definition overlap (a b : bit_info) : Prop := exists v, b_since a <= v < b_depr a /\ b_since b <= v < b_depr b.

(** the bit described by the <bit> element [n] *)
Definition bit_element (e : env) (dflt resv : bool) (bitLength since depr : Z)
    (n : node) (x : str * bit_info) : Prop :=
  exists p idx,
    parseChildrenAsProps n [L "name"; L "idx"; L "defaultValue"; L "reservedValue"; L "reserved"; L "sinceVersion";
       L "deprecated"; L "description"; L "displayName"] true (parseNodeProps n) = Ok p /\
    find_prop p (L "name") = Some (fst x) /\
    find_prop p (L "idx") = Some idx /\
    (exists z, denotes idx z /\ Z.abs z < 2 ^ 64 /\ b_idx (snd x) = z mod 2 ^ 32) /\
    b_idx (snd x) < bitLength /\
    bit_prop e (find_prop p (L "defaultValue")) dflt (b_default (snd x)) /\
    bit_prop e (find_prop p (L "reserved")) false (b_reserved (snd x)) /\
    bit_prop e (find_prop p (L "reservedValue")) resv (b_reservedValue (snd x)) /\
    version_text (find_prop p (L "sinceVersion")) since (b_since (snd x)) /\
    version_text (find_prop p (L "deprecated")) depr (b_depr (snd x)) /\
    consistent_versions (e_version e) since depr (b_since (snd x)) (b_depr (snd x)) /\
    (b_reserved (snd x) = true -> b_since (snd x) = since /\ b_depr (snd x) = depr).
