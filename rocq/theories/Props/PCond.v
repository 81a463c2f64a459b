(** C24 (text of conditions) and the part of C23 that concerns the shape of condition trees. *)
From Verif.Model Require Import Base Common Xml Units Field FieldCommon OptCond.
From Verif.Spec Require Import Texts XmlSpec CondSpec FieldSpec TreeSpec Ex.
From Verif.Model Require Import Composite.
From Verif.Proofs Require Import BaseFacts CommonFacts CondFacts TreeFacts.

(** C24: whatever text is accepted, the recorded operands and operator are those of the text. *)
Theorem C24_condition_is_its_text e t c : cond_expr e t = Ok c ->
  exists l op r, c = CExpr l op r /\ (comparison_text t l op r \/ l = [] /\ single_text t op r).
Proof.
  unfold cond_expr. intros H. apply bind_Ok in H as (u & _ & H).
  eapply try_ops_spec; [|exact H]. apply ops_are_operators.
Qed.
Print Assumptions C24_condition_is_its_text.

(** C24: and every text made of a sibling reference, an operator and a value, none of which
    contains a character of an operator, is accepted, however many spaces surround the operator. *)
Theorem C24_comparison_accepted e l s1 op s2 r :
  (exists l', l = "$"%char :: l') -> r <> [] -> In op operators -> spaces s1 -> spaces s2 ->
  no_trailing_space l -> no_leading_space r -> (s1 = [] -> last l " "%char <> "\"%char) ->
  (forall c, In c (l ++ r) -> ~ operator_char c) ->
  cond_expr e (l ++ s1 ++ op ++ s2 ++ r) = Ok (CExpr l op r).
Proof. apply cond_expr_roundtrip. Qed.
Print Assumptions C24_comparison_accepted.

Theorem C24_single_accepted e op s r :
  (exists r', r = "$"%char :: r') -> (forall c, In c r -> ~ operator_char c) -> spaces s ->
  (op = [] /\ s = [] \/ op = ["!"%char]) ->
  cond_expr e (op ++ s ++ r) = Ok (CExpr [] op r).
Proof. apply cond_single_roundtrip. Qed.
Print Assumptions C24_single_accepted.

(** the value part of a comparison never loses or gains a character: two texts with the same
    left part and operator and different values give different conditions *)
Theorem C24_distinct_texts_distinct_conditions e t1 t2 c :
  cond_expr e t1 = Ok c -> cond_expr e t2 = Ok c ->
  forall l op r, c = CExpr l op r ->
  exists p1 q1 p2 q2, spaces p1 /\ spaces q1 /\ spaces p2 /\ spaces q2 /\
    t1 = l ++ p1 ++ op ++ q1 ++ r /\ t2 = l ++ p2 ++ op ++ q2 ++ r.
Proof.
  intros H1 H2 l op r ->.
  assert (K : forall t, cond_expr e t = Ok (CExpr l op r) ->
    exists p q, spaces p /\ spaces q /\ t = l ++ p ++ op ++ q ++ r).
  { intros t H. apply C24_condition_is_its_text in H as (l' & op' & r' & E & H). injection E as <- <- <-.
    destruct H as [(s1 & s2 & E & A & B & _)|(-> & [(-> & -> & _)|(-> & s & -> & A & _)])].
    - exists s1, s2. auto.
    - exists [], []. repeat split; constructor.
    - exists [], s. repeat split; [constructor|exact A]. }
  apply K in H1 as (p1 & q1 & ? & ? & ?). apply K in H2 as (p2 & q2 & ? & ? & ?).
  exists p1, q1, p2, q2. auto 10.
Qed.
Print Assumptions C24_distinct_texts_distinct_conditions.

(** C23: every <and>/<or> of an accepted tree combines two or more conditions, each of
    them in turn accepted from its own text. *)
Theorem C23_and_or_combine_two_or_more e cs n c : cond_list e cs n = Ok c -> well_formed_cond c.
Proof. apply cond_list_wf. Qed.
Print Assumptions C23_and_or_combine_two_or_more.

(** C24: a tree of <and> and <or> elements is recorded as written: the same connectives, the same
    conditions in the same order *)
Theorem C24_tree : forall e k n c, cond_list e k n = Ok c -> tree_cond k n c.
Proof. exact cond_list_tree. Qed.
Print Assumptions C24_tree.
(** C24: the condition of an accepted <optional> that reuses nothing is the one its element has, and it has only one *)
Theorem C24_optional : forall e x n c s o g d, parse_field e x n = Ok (FOptional c s o g d) -> supplied n (T "reuse") [] ->
  exists trees, and_or (n_children n) trees /\ written_cond n (T "cond") trees d.
Proof. exact optional_written. Qed.
Print Assumptions C24_optional.
Local Open Scope string_scope.
Example C24_ex : map (fun t => match cond_expr (ex_fenv []) (L t) with Ok c => Some c | _ => None end)
    ["$a = 3"; "$a.b>=$c"; "! $s.up"; "$x\=1 != y"; "a = 3"; "$a ="; "%f < -1"] =
  [Some (CExpr (T "$a") (T "=") (T "3")); Some (CExpr (T "$a.b") (T ">=") (T "$c")); Some (CExpr [] (T "!") (T "$s.up"));
   Some (CExpr (T "$x\=1") (T "!=") (T "y")); None; None; Some (CExpr (T "%f") (T "<") (T "-1"))].
Proof. vm_compute. reflexivity. Qed.
Example C24_tree_ex : cond_list (ex_fenv []) (L "cond")
    (el "or" [] [el "cond" [("value", "$a = 1")] []; el "and" [] [text_el "cond" "$b"; text_el "cond" "!$c"]]) =
  Ok (CList false [CExpr (T "$a") (T "=") (T "1"); CList true [CExpr [] [] (T "$b"); CExpr [] (T "!") (T "$c")]]) /\
  cond_list (ex_fenv []) (L "cond") (el "or" [] [el "cond" [("value", "$a = 1")] []]) = Err.
Proof. split; vm_compute; reflexivity. Qed.
Definition ex_opt : node := el "optional" [("name", "o")] [el "field" [] [el "int" [("name", "i"); ("type", "uint8")] []]; el "and" [] [text_el "cond" "$b"; text_el "cond" "!$c"]].
Example C24_optional_ex : match ex_global [] ex_opt with
  | Ok (FOptional _ _ _ _ d) => d = Some (CList true [CExpr [] [] (T "$b"); CExpr [] (T "!") (T "$c")])
  | _ => False
  end.
Proof. vm_compute. reflexivity. Qed.
