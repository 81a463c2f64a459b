(** Specification of the DSL versions that introduced properties. *)
From Coq Require Import Ascii String ZArith List.
From Verif.Spec Require Import Texts.
Import ListNotations.
Open Scope Z_scope.

(** introduced in DSL version [v], the schema says dslVersion="[d]" (0: it doesn't) *)
Definition available (v d : Z) : Prop := d = 0 \/ v <= d.
(** [d'] is later than [d], or not specified at all *)
Definition later_dsl (d d' : Z) : Prop := d' = 0 \/ d <> 0 /\ d <= d'.
Definition property_since : list (txt * Z) := [
  (T "validateMinLength", 4); (T "defaultValidValue", 4); (T "availableLengthLimit", 4);
  (T "copyCodeFrom", 5); (T "semanticLayerType", 5); (T "checksumFrom", 5); (T "checksumUntil", 5);
  (T "termSuffix", 5); (T "missingOnReadFail", 5); (T "missingOnInvalid", 5); (T "reuseCode", 5);
  (T "construct", 6); (T "readCond", 6); (T "validCond", 6); (T "constructAsReadCond", 6);
  (T "constructAsValidCond", 6); (T "fixedValue", 7); (T "copyConstructFrom", 7);
  (T "copyReadCondFrom", 7); (T "copyValidCondFrom", 7); (T "seekField", 8); (T "escField", 8)]%string.
