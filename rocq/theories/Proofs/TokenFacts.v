(** Facts about tokens of generated code. *)
From Coq Require Import ZifyBool ZifyNat.
From Verif.Model Require Import Base Common GenUtil.
From Verif.Spec Require Import Texts GenSpec TokenSpec.
From Verif.Proofs Require Import BaseFacts CommonFacts GenFacts WrapFacts TemplateFacts.
From Verif.Props Require Import PTemplate.
Local Open Scope nat_scope.
Local Open Scope list_scope.

(** * Cutting *)
Definition starts (b : txt) : bool := match b with [] => true | d :: _ => negb (ident_char d) end.
Fixpoint ends (a : txt) : bool := match a with [] => true | [c] => negb (ident_char c) | _ :: a' => ends a' end.
Lemma space_not_ident c : space_char c = true -> ident_char c = false.
Proof.
  assert (forall c, implb (space_char c) (negb (ident_char c)) = true) as H by (apply all_chars_b; vm_compute; reflexivity).
  intro S. specialize (H c). rewrite S in H. cbn in H. now destruct (ident_char c).
Qed.
Lemma tokens_app a b : ends a || starts b = true -> tokens (a ++ b) = tokens a ++ tokens b.
Proof.
  induction a as [|c a IH]; [reflexivity|]. intro H. cbn [app tokens].
  destruct (space_char c) eqn:S.
  { apply IH. destruct a as [|d a]; [reflexivity|exact H]. }
  destruct (ident_char c) eqn:I; cbn [negb].
  - destruct a as [|d a].
    + cbn in H. rewrite I in H. cbn in H. cbn [app]. destruct b as [|d b]; [reflexivity|]. cbn in H.
      destruct (ident_char d); [discriminate|reflexivity].
    + cbn [app] in *. specialize (IH H). rewrite IH. destruct (ident_char d) eqn:D; [|reflexivity].
      destruct (tokens (d :: a)) as [|w ws] eqn:Et; [|reflexivity]. exfalso. clear - Et D. cbn [tokens] in Et.
      destruct (space_char d) eqn:S; [rewrite (space_not_ident _ S) in D; discriminate|]. rewrite D in Et. cbn [negb] in Et.
      destruct a as [|e a]; [discriminate|]. destruct (ident_char e); [|discriminate]. destruct (tokens (e :: a)); discriminate.
  - rewrite IH; [reflexivity|]. destruct a as [|d a]; [reflexivity|exact H].
Qed.
Lemma tokens_l a b : ends a = true -> tokens (a ++ b) = tokens a ++ tokens b.
Proof. intro H. apply tokens_app. now rewrite H. Qed.
Lemma tokens_r a b : starts b = true -> tokens (a ++ b) = tokens a ++ tokens b.
Proof. intro H. apply tokens_app. rewrite H. apply orb_true_r. Qed.
Lemma tokens_nl a b : tokens (a ++ nl :: b) = tokens a ++ tokens b.
Proof. rewrite tokens_r by reflexivity. reflexivity. Qed.

(** * Layout does not matter *)
Inductive spread : txt -> txt -> Prop :=
| sp_nil : spread [] []
| sp_cons c a b : spread a b -> spread (c :: a) (c :: b)
| sp_blank k a b : spread a b -> spread (nl :: repeat " "%char k ++ a) (nl :: b).
Lemma spread_refl a : spread a a.
Proof. induction a; constructor; assumption. Qed.
Lemma spread_app a b a' b' : spread a b -> spread a' b' -> spread (a ++ a') (b ++ b').
Proof.
  intros H H'. induction H as [|c a b H IH|k a b H IH]; cbn [app]; [exact H'|now constructor|].
  rewrite <- app_assoc. now constructor.
Qed.
Lemma spread_head a b : spread a b -> hd_error a = hd_error b.
Proof. intros []; reflexivity. Qed.
Lemma tokens_blanks k a : tokens (repeat " "%char k ++ a) = tokens a.
Proof. induction k; [reflexivity|exact IHk]. Qed.
Lemma spread_tokens a b : spread a b -> tokens a = tokens b.
Proof.
  induction 1 as [|c a b H IH|k a b H IH]; [reflexivity| |].
  - apply spread_head in H. cbn [tokens]. rewrite IH. destruct a, b; try discriminate; [reflexivity|]. now injection H as ->.
  - change (tokens (repeat " "%char k ++ a) = tokens b). now rewrite tokens_blanks.
Qed.
Lemma indented_spread k v : spread (indented k v) v.
Proof.
  unfold indented. rewrite lines_join_gen. induction v as [|c v IH]; [constructor|]. cbn [flat_map].
  destruct (Ascii.eqb newline c) eqn:E.
  - apply nl_is in E as ->. cbn [app]. now constructor.
  - now constructor.
Qed.
Lemma filled_spread value l : forall done, spread (filled value done l) (substituted value l).
Proof.
  induction l as [|[t|k] l IH]; intro done; cbn [filled substituted]; [constructor| |];
    (apply spread_app; [|apply IH]); [apply spread_refl|apply indented_spread].
Qed.
Lemma blank_tokens r : has_text r = false -> tokens r = [].
Proof.
  induction r as [|c r IH]; [reflexivity|]. unfold has_text in *. cbn [existsb tokens]. intro H. apply orb_false_elim in H as [H1 H2].
  assert (space_char c = true) as ->.
  { assert (forall c, implb (blank_char c) (space_char c) = true) as Q by (apply all_chars_b; vm_compute; reflexivity).
    specialize (Q c). destruct (blank_char c); [exact Q|discriminate]. }
  apply IH, H2.
Qed.
Lemma chomp_tokens r : tokens (chomp r) = tokens r.
Proof.
  induction r as [|c r IH]; [reflexivity|]. cbn [chomp]. destruct (has_text (c :: r)) eqn:H.
  - cbn [tokens]. rewrite IH. destruct (space_char c); [reflexivity|]. destruct (ident_char c) eqn:I; cbn [negb]; [|reflexivity].
    destruct r as [|d r]; [reflexivity|]. cbn [chomp]. destruct (has_text (d :: r)) eqn:H'; [reflexivity|].
    rewrite (blank_tokens _ H'). destruct (ident_char d); reflexivity.
  - rewrite (blank_tokens _ H). reflexivity.
Qed.
Lemma tokens_join l : tokens (join [newline] l) = flat_map tokens l.
Proof.
  induction l as [|x l IH]; [reflexivity|]. destruct l as [|y l].
  - cbn [join flat_map]. now rewrite app_nil_r.
  - change (join [newline] (x :: y :: l)) with (x ++ nl :: join [newline] (y :: l)). rewrite tokens_nl, IH. reflexivity.
Qed.
Lemma rows_tokens s : tokens s = flat_map tokens (text_rows s).
Proof.
  rewrite <- (lines_join s) at 1. rewrite tokens_join. unfold text_rows. induction (lines_of s) as [|r l IH]; [reflexivity|].
  cbn [flat_map filter]. destruct (has_text r) eqn:H; cbn [flat_map]; rewrite IH; [reflexivity|]. now rewrite (blank_tokens _ H).
Qed.
Lemma chomped_tokens s : tokens s = flat_map tokens (map chomp (text_rows s)).
Proof.
  rewrite rows_tokens. induction (text_rows s) as [|r l IH]; [reflexivity|]. cbn [flat_map map]. now rewrite IH, chomp_tokens.
Qed.

(** * Templates *)
Fixpoint cut_template (fuel : nat) (s : txt) : option (list piece) :=
  match fuel with
  | O => None
  | S f =>
      match find_sub (T "#^#") s with
      | None => Some [Text s]
      | Some (t, a) =>
          match find_sub (T "#$#") a with
          | None => None
          | Some (k, r) => match cut_template f r with Some l => Some (Text t :: Hole k :: l) | None => None end
          end
      end
  end.
Lemma cut_template_spec : forall fuel s l, cut_template fuel s = Some l -> template l /\ template_text l = s.
Proof.
  induction fuel as [|n IH]; intros s l H; [discriminate|]. cbn [cut_template] in H.
  destruct (find_sub (T "#^#") s) as [[t a]|] eqn:F1.
  - apply find_sub_spec in F1 as [-> M1]. destruct (find_sub (T "#$#") a) as [[k r]|] eqn:F2; [|discriminate].
    apply find_sub_spec in F2 as [-> M2]. destruct (cut_template n r) as [l'|] eqn:E; [|discriminate]. injection H as <-.
    apply IH in E as [Tl <-]. split; [|reflexivity]. constructor; [| |exact Tl].
    + apply (marker_minimal (T "#^") "#"%char _ _ M1).
    + apply (marker_minimal (T "#$") "#"%char _ _ M2).
  - injection H as <-. split; [constructor; now apply find_sub_none|]. cbn. apply app_nil_r.
Qed.
(** the tokens of a filled template *)
Lemma template_tokens fuel templ l repl tidy : cut_template fuel templ = Some l ->
  exists out, genProcessTemplate templ repl tidy = Ok out /\ tokens out = tokens (substituted (fun k => lookup k repl) l).
Proof.
  intro H. apply cut_template_spec in H as [Tl <-]. destruct tidy.
  - destruct (C36_tidy l repl Tl) as (out & E & R). exists out. split; [exact E|]. rewrite chomped_tokens, R, <- chomped_tokens.
    apply spread_tokens, filled_spread.
  - destruct (C36_rows l repl Tl) as (out & E & R). exists out. split; [exact E|]. rewrite rows_tokens, R, <- rows_tokens.
    apply spread_tokens, filled_spread.
Qed.
