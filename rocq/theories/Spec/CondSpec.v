(** Specification of the text of a condition: <left> <operator> <right>, or a single
    operand, possibly negated. Independent of the model's functions. *)
From Coq Require Import Ascii String List.
From Verif.Spec Require Import Texts.
Import ListNotations.
Open Scope char_scope.

Definition spaces (s : txt) : Prop := Forall (fun c => c = " ") s.
Definition operators : list txt := map list_ascii_of_string ["!="; ">="; "<="; "="; ">"; "<"]%string.
Definition operand (s : txt) : Prop := exists c r, s = c :: r /\ (c = "$" \/ c = "%").
Definition no_leading_space (s : txt) : Prop := forall c r, s = c :: r -> c <> " ".
Definition no_trailing_space (s : txt) : Prop := forall c r, s = r ++ [c] -> c <> " ".

(** [expr] is written as: left operand, operator, right operand. The operator taken is not
    escaped with a backslash, and is the first such occurrence. *)
Definition comparison_text (expr left op right : txt) : Prop :=
  exists s1 s2, expr = left ++ s1 ++ op ++ s2 ++ right /\ spaces s1 /\ spaces s2 /\
    In op operators /\ operand left /\ right <> [] /\
    no_trailing_space left /\ no_leading_space right /\
    (forall a b, left ++ s1 = a ++ b -> a <> [] -> last a "\" <> "\" -> ~ exists t, (b ++ op ++ s2 ++ right) = op ++ t /\ b <> []) /\
    last (left ++ s1) " " <> "\".
Definition single_text (expr op right : txt) : Prop :=
  op = [] /\ expr = right /\ operand right \/
  op = ["!"] /\ exists s, expr = "!" :: s ++ right /\ spaces s /\ operand right.
(** characters operators are made of *)
Definition operator_char (c : ascii) : Prop := c = "!" \/ c = "=" \/ c = "<" \/ c = ">".
