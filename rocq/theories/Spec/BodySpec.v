(** Code of the functions generated for an integer field, without indentation. *)
From Coq Require Import Ascii String ZArith List.
Import ListNotations.
From Verif.Model Require Import Base Common Field.
From Verif.Spec Require Import Texts GenSpec.
Open Scope Z_scope.

Definition lines (l : list string) : txt := flat_map (fun s => list_ascii_of_string s ++ [newline]) l.
(** one more way to be valid: all conditions hold *)
Definition check_code (conj : list txt) : txt :=
  T "if (" ++ join (T " &&" ++ [newline]) conj ++ lines [") {"; "return true;"; "}"]%string.
(** valid(): what the library says, else one of the conjunctions *)
Definition valid_code (checks : list (list txt)) : txt :=
  lines ["if (Base::valid()) {"; "return true;"; "}"; ""]%string ++
  join [newline] (map check_code checks) ++ [newline] ++ lines ["return false;"]%string.
(** refresh(): an invalid field is assigned the value *)
Definition assign_code (value : txt) : txt :=
  lines ["bool updated = Base::refresh();"; "if (Base::valid()) {"; "return updated;"; "};"]%string ++
  T "Base::setValue(" ++ value ++ lines [");"; "return true;"]%string.
(** the text a user sees for an element: its display name, by default its name; "_" stands for no text *)
Definition shown (displayName name text : txt) : Prop :=
  (displayName = [] /\ text = name) \/ (displayName = T "_" /\ text = []) \/
  (displayName <> [] /\ displayName <> T "_" /\ text = displayName).
(** characters which stand for themselves in a string literal *)
Definition literal_char (c : ascii) : Prop := c <> ascii_of_nat 34 /\ c <> "\"%char /\ c <> newline.
(** a word begins with its only capital letter *)
Definition capital (c : ascii) : Prop := (65 <= nat_of_ascii c <= 90)%nat.
Definition word_like (w : txt) : Prop := exists c r, w = c :: r /\ Forall (fun x => ~ capital x) r.
(** capital letters *)
Definition upper (c : ascii) : ascii :=
  if ((97 <=? nat_of_ascii c) && (nat_of_ascii c <=? 122))%nat%bool then ascii_of_nat (nat_of_ascii c - 32) else c.
(** byte order of a class whose base has the byte order of the schema, by its parameter *)
Inductive byte_order (schema : endian) : txt -> endian -> Prop :=
| order_of_schema : byte_order schema [] schema
| order_big : byte_order schema (T "comms::option::def::BigEndian") Big
| order_little : byte_order schema (T "comms::option::def::LittleEndian") Little.
