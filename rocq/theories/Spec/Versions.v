(** Specification of element versions: an element exists in the protocol versions
    [since, deprecated). Independent of the model's functions. *)
From Coq Require Import ZArith List.
From Verif.Spec Require Import Texts.
Open Scope Z_scope.

Definition never : Z := 2 ^ 32 - 1.

(** the version a (possibly absent) property stands for; the text is read as a 32 bit
    number (C02) *)
Definition version_text (given : option txt) (inherited v : Z) : Prop :=
  match given with
  | None => v = inherited
  | Some t => exists z, denotes t z /\ Z.abs z < 2 ^ 64 /\ v = z mod 2 ^ 32
  end.

Definition consistent_versions (schema parentSince parentDepr since depr : Z) : Prop :=
  parentSince <= since /\ since < depr /\ depr <= parentDepr /\ since <= schema /\
  (depr = never \/ depr <= schema).
