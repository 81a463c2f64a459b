(** C36, C39: templates and wrapped texts. *)
From Coq Require Import ZifyBool ZifyNat.
From Verif.Model Require Import Base Common GenUtil.
From Verif.Spec Require Import Texts GenSpec.
From Verif.Proofs Require Import BaseFacts CommonFacts GenFacts WrapFacts TemplateFacts.
Local Open Scope string_scope. Local Open Scope nat_scope. Local Open Scope list_scope.

(** ** C36 *)
(** every text is a template in exactly the way its markers say, unless a placeholder is not closed *)
Theorem C36_every_text : forall s,
  (exists l, template l /\ template_text l = s) \/ (exists a b, s = a ++ T "#^#" ++ b /\ ~ occurs (T "#$#") b).
Proof. intro s. apply (template_total (S (length s))). lia. Qed.
Print Assumptions C36_every_text.
Lemma tidy_nil : tidy_done []. Proof. intros _. reflexivity. Qed.
Lemma processed l repl : template l -> exists out, process_loop (S (length (template_text l))) repl [] (template_text l) = Ok out /\
    same_rows [] out (filled (fun k => lookup k repl) [] l) /\
    ((forall k, In k (holes l) -> lookup k repl <> []) -> out = filled (fun k => lookup k repl) [] l).
Proof. intro Tl. apply process_spec; [exact Tl|lia|exact tidy_nil]. Qed.
Theorem C36_filled : forall l repl, template l -> (forall k, In k (holes l) -> lookup k repl <> []) ->
  genProcessTemplate (template_text l) repl false = Ok (filled (fun k => lookup k repl) [] l).
Proof.
  intros l repl Tl H. destruct (processed l repl Tl) as (out & E & _ & Q). unfold genProcessTemplate. rewrite E. cbn. now rewrite Q.
Qed.
Print Assumptions C36_filled.
(** empty replacements only remove rows which would be blank *)
Theorem C36_rows : forall l repl, template l ->
  exists out, genProcessTemplate (template_text l) repl false = Ok out /\
              text_rows out = text_rows (filled (fun k => lookup k repl) [] l).
Proof.
  intros l repl Tl. destruct (processed l repl Tl) as (out & E & [S _] & _). exists out.
  unfold genProcessTemplate. rewrite E. split; [reflexivity|]. apply S. reflexivity.
Qed.
Print Assumptions C36_rows.
(** tidying touches only blanks at the ends of rows and blank rows *)
Theorem C36_tidy : forall l repl, template l ->
  exists out, genProcessTemplate (template_text l) repl true = Ok out /\
              map chomp (text_rows out) = map chomp (text_rows (filled (fun k => lookup k repl) [] l)).
Proof.
  intros l repl Tl. destruct (processed l repl Tl) as (out & E & [S _] & _). exists (genDoTidyCode out).
  unfold genProcessTemplate. rewrite E. split; [reflexivity|]. change (map chomp (text_rows (genDoTidyCode out))) with (solid_rows (genDoTidyCode out)).
  rewrite tidy_rows. unfold solid_rows. f_equal. apply S. reflexivity.
Qed.
Print Assumptions C36_tidy.
(** replacements of one line are inserted unchanged *)
Theorem C36_substituted : forall l value done, (forall k, In k (holes l) -> ~ In newline (value k)) ->
  filled value done l = substituted value l.
Proof.
  intros l value. induction l as [|[t|k] l IH]; intros done H; cbn [filled substituted]; [reflexivity| |].
  - f_equal. apply IH. exact H.
  - rewrite IH by (intros k' I; apply H; now right). f_equal. unfold indented.
    rewrite (lines_no_nl (value k)) by (apply H; now left). reflexivity.
Qed.
Print Assumptions C36_substituted.
(** a placeholder without its end loses the text in front of it *)
Theorem C36_unterminated_refuted : exists t repl, genProcessTemplate t repl false = Ok [] /\ exists a b, t = a ++ T "#^#" ++ b /\ a <> [].
Proof. exists (T "int x; #^#NAME"), []. split; [vm_compute; reflexivity|]. exists (T "int x; "), (T "NAME"). split; [reflexivity|discriminate]. Qed.
Print Assumptions C36_unterminated_refuted.
Definition tmpl_ex : list piece :=
  [Text (T "class "); Hole (T "NAME"); Text (T " {" ++ [newline] ++ T "    "); Hole (T "BODY"); Text ([newline] ++ T "    "); Hole (T "NONE");
   Text ([newline] ++ T "};" ++ [newline])].
Definition repl_ex : replacements :=
  [(T "BODY", T "int #^#NAME#$#;" ++ [newline] ++ T "int b;"); (T "NAME", T "Foo")].
Example C36_example_template : template tmpl_ex.
Proof.
  assert (forall w s, find_sub w s = None -> ~ occurs w s) as N by (intros; now apply find_sub_none).
  repeat constructor; apply N; vm_compute; reflexivity.
Qed.
(** replacements are not searched for placeholders; the row of NONE is dropped *)
Example C36_example_result : genProcessTemplate (template_text tmpl_ex) repl_ex false =
  Ok (T "class Foo {" ++ [newline] ++ T "    int #^#NAME#$#;" ++ [newline] ++ T "    int b;" ++ [newline] ++ T "};" ++ [newline]).
Proof. vm_compute. reflexivity. Qed.
Example C36_example_tidy : genDoTidyCode (T "a;  " ++ [newline; newline; newline; newline] ++ T "}" ++ [newline; newline]) =
  T "a;" ++ [newline] ++ T "}" ++ [newline].
Proof. vm_compute. reflexivity. Qed.

(** ** C39 *)
Theorem C39_words : forall s len drop, exists r, genStrMakeMultiline s len drop = Ok r /\ words_of r = words_of s.
Proof. intros s len drop. destruct (multiline_spec s len drop) as (r & E & W). exists r. split; [exact E|]. eapply wraps_words; eauto. Qed.
Print Assumptions C39_words.
(** by default: the same text with some white characters replaced by newlines *)
Theorem C39_replaced : forall s len r, genStrMakeMultiline s len true = Ok r ->
  Forall2 (fun a b => a = b \/ (white a = true /\ b = newline)) s r.
Proof.
  intros s len r E. destruct (multiline_spec s len true) as (r' & E' & W). assert (r' = r) as -> by congruence. eapply wraps_drop; eauto.
Qed.
Print Assumptions C39_replaced.
(** a line twice as long as asked for, or longer, has no blank or tab in its first [len] places behind the first;
    missing: a line between [len] and twice [len] (see C39_width_refuted) *)
Theorem C39_width_partial : forall s len r l, genStrMakeMultiline s len true = Ok r -> In l (lines_of r) ->
  length l <= len \/ length l < 2 * len \/ forall i c, 1 <= i -> nth_error l i = Some c -> c <> " "%char /\ c <> "009"%char.
Proof.
  intros s len r l E I. destruct (multiline_spec s len true) as (r' & E' & W). assert (r' = r) as -> by congruence.
  destruct (wraps_width len s r l W I) as [H|[H|H]]; [auto|auto|]. right; right. intros i c Hi Hc. specialize (H i c Hi Hc).
  split; intros ->; discriminate.
Qed.
Print Assumptions C39_width_partial.
Theorem C39_width_refuted : exists s len r l i, genStrMakeMultiline s len true = Ok r /\ In l (lines_of r) /\
  len < length l /\ 1 <= i <= len /\ nth_error l i = Some " "%char.
Proof.
  exists (T "ab cdefghijk lm"), 10, (T "ab cdefghijk" ++ [newline] ++ T "lm"), (T "ab cdefghijk"), 2.
  split; [vm_compute; reflexivity|]. split; [left; reflexivity|]. cbn. lia || (split; [lia|split; [lia|reflexivity]]).
Qed.
Print Assumptions C39_width_refuted.
Example C39_example : genStrMakeMultiline (T "one two three four") 8 true = Ok (T "one two" ++ [newline] ++ T "three" ++ [newline] ++ T "four") /\
  words_of (T "one two  three") = [T "one"; T "two"; T "three"].
Proof. split; vm_compute; reflexivity. Qed.
