(** Specification of the texts of schema properties. *)
From Coq Require Import Ascii String ZArith List.
From Verif.Model Require Import Base Common.
From Verif.Spec Require Import Texts.
Import ListNotations.

(** [a] is the letter [b] or its upper case *)
Definition letter_case (a b : ascii) : Prop :=
  a = b \/ exists i, nth_error (T "ABCDEFGHIJKLMNOPQRSTUVWXYZ") i = Some a /\ nth_error (T "abcdefghijklmnopqrstuvwxyz") i = Some b.
(** [v] is the lower case text [w] up to the case of letters *)
Definition caseless (v w : txt) : Prop := Forall2 letter_case v w.
Definition endian_text (v : txt) (e : endian) : Prop :=
  match e with Big => caseless v (T "big") | Little => v = [] \/ caseless v (T "little") end.
Definition bool_text (v : txt) (b : bool) : Prop :=
  if b then caseless v (T "true") \/ v = T "1" else caseless v (T "false") \/ v = T "0".
(** the properties of <schema> *)
Definition schema_properties : list txt :=
  [T "name"; T "displayName"; T "id"; T "version"; T "dslVersion"; T "endian"; T "description"; T "nonUniqueMsgIdAllowed"].
