(** Facts about genProcessTemplate and genDoTidyCode. *)
From Coq Require Import ZifyBool ZifyNat.
From Verif.Model Require Import Base Common GenUtil.
From Verif.Spec Require Import Texts GenSpec.
From Verif.Proofs Require Import BaseFacts CommonFacts GenFacts WrapFacts.
Local Open Scope nat_scope.
Local Open Scope list_scope.
Local Arguments nl : simpl never.

(** * The last row of a text *)
Definition last_row (s : txt) : txt := skipn (line_start s) s.
Lemma line_start_le s : line_start s <= length s.
Proof.
  induction s as [|c s IH]; cbn; [lia|]. destruct (line_start s) eqn:E.
  all: try destruct (ch_eqb c nl).
  all: try lia.
Qed.
Lemma line_start_none s : ~ In nl s -> line_start s = 0.
Proof.
  induction s as [|c s IH]; cbn; intro H; [reflexivity|]. rewrite IH by tauto.
  destruct (ch_eqb c nl) eqn:E; [|reflexivity]. apply ch_eqb_eq in E as ->. exfalso. apply H. now left.
Qed.
Lemma line_start_nl a b : ~ In nl b -> line_start (a ++ nl :: b) = S (length a).
Proof.
  intro H. induction a as [|c a IH]; cbn.
  - now rewrite line_start_none by exact H.
  - now rewrite IH.
Qed.
Lemma row_cases s : (~ In nl s /\ line_start s = 0 /\ last_row s = s) \/
  exists a b, s = a ++ nl :: b /\ ~ In nl b /\ line_start s = S (length a) /\ last_row s = b.
Proof.
  induction s as [|c s IH] using rev_ind.
  - left. cbn. auto.
  - destruct (ascii_dec c nl) as [->|N].
    + right. exists s, []. split; [reflexivity|]. split; [auto|].
      unfold last_row. rewrite (line_start_nl s []) by auto. split; [reflexivity|]. rewrite skipn_all2; [reflexivity|]. rewrite app_length. cbn. lia.
    + destruct IH as [(H & _)|(a & b & -> & H & _)].
      * left. assert (~ In nl (s ++ [c])) as H'. { rewrite in_app_iff. intros [K|[K|[]]]; [tauto|congruence]. }
        unfold last_row. rewrite line_start_none by exact H'. auto.
      * right. exists a, (b ++ [c]). assert (~ In nl (b ++ [c])) as H'. { rewrite in_app_iff. intros [K|[K|[]]]; [tauto|congruence]. }
        rewrite <- app_assoc. cbn [app]. split; [reflexivity|]. split; [exact H'|].
        unfold last_row. rewrite line_start_nl by exact H'. split; [reflexivity|].
        replace (a ++ nl :: b ++ [c]) with ((a ++ [nl]) ++ b ++ [c]) by now rewrite <- app_assoc.
        rewrite skipn_app. rewrite skipn_all2 by (rewrite app_length; cbn; lia). rewrite app_length. cbn [length].
        now replace (S (length a) - (length a + 1)) with 0 by lia.
Qed.
Lemma lines_no_nl b : ~ In nl b -> lines_of b = [b].
Proof.
  intro H. apply cut_none. apply forallb_forall. intros c I. destruct (Ascii.eqb newline c) eqn:E; [|reflexivity].
  apply nl_is in E as ->. contradiction.
Qed.
Lemma last_app_cons {A} (l l' : list A) x d : last (l ++ x :: l') d = last (x :: l') d.
Proof. induction l as [|y l IH]; [reflexivity|]. cbn [app last]. rewrite IH. destruct l; reflexivity. Qed.
Lemma column_row s : column s = length (last_row s).
Proof.
  unfold column. destruct (row_cases s) as [(H & _ & ->)|(a & b & -> & H & _ & ->)].
  - now rewrite lines_no_nl.
  - rewrite lines_app, (lines_no_nl b H), last_app_cons. reflexivity.
Qed.

(** * Values *)
Lemma strip_one x c s : strip [x] (c :: s) = if ch_eqb x c then Some s else None.
Proof. reflexivity. Qed.
Lemma pieces_lines s : pieces [nl] s (lines_of s).
Proof.
  induction s as [|c s IH].
  - constructor. intros (a & b & E). destruct a; discriminate.
  - unfold lines_of in *. cbn [cut_at]. destruct (Ascii.eqb newline c) eqn:E.
    + apply nl_is in E as ->. apply (pieces_more [nl] [] s); [intros; cbn; lia|exact IH].
    + assert (c <> nl) as N by (intros ->; now rewrite (proj2 (nl_is nl) eq_refl) in E).
      remember (cut_at (Ascii.eqb newline) s) as cs eqn:Ec. clear Ec.
      inversion IH as [s' H E1 E2|a s' ps M P E1 E2]; subst.
      * constructor. intros ([|x a] & b & Eq); cbn in Eq; [congruence|]. injection Eq as -> Eq.
        apply H. now exists a, b.
      * apply (pieces_more [nl] (c :: a) s'); [|exact P].
        intros [|x b] d Eq; cbn in Eq; [congruence|]. injection Eq as -> Eq. cbn. apply le_n_S. now apply (M b d).
Qed.
Lemma indent_text v n :
  (if is_nil v then Ok [] else if n =? 0 then Ok v else genStrReplace v [nl] (nl :: repeat " "%char n)) = Ok (indented n v).
Proof.
  destruct v as [|c v]; [reflexivity|]. cbn [is_nil]. destruct n as [|n].
  - cbn [Nat.eqb]. unfold indented. cbn [repeat]. now rewrite lines_join.
  - cbn [Nat.eqb]. rewrite (replace_spec [nl] _ _ (lines_of (c :: v))) by (discriminate || apply pieces_lines). reflexivity.
Qed.

(** * Rows *)
Lemma rows_app a b : text_rows (a ++ nl :: b) = text_rows a ++ text_rows b.
Proof. unfold text_rows. rewrite lines_app. apply filter_app. Qed.
Lemma row_blank_char c : (ch_eqb c " " || ch_eqb c (chr 9) || ch_eqb c (chr 13)) = blank_char c.
Proof.
  assert (forall c, Bool.eqb (ch_eqb c " " || ch_eqb c (chr 9) || ch_eqb c (chr 13)) (blank_char c) = true) as H.
  { apply all_chars_b. vm_compute. reflexivity. }
  apply eqb_prop, H.
Qed.
Lemma row_blank_spec r : row_blank r = negb (has_text r).
Proof.
  unfold row_blank, has_text. induction r as [|c r IH]; [reflexivity|]. cbn [forallb existsb]. rewrite row_blank_char, IH.
  destruct (blank_char c); reflexivity.
Qed.
Lemma row_blank_nonl r : row_blank r = true -> ~ In nl r.
Proof.
  unfold row_blank. rewrite forallb_forall. intros H I. apply H in I. discriminate.
Qed.
Lemma row_blank_app a b : row_blank (a ++ b) = row_blank a && row_blank b.
Proof. apply forallb_app. Qed.
Lemma blank_rows r b : row_blank r = true -> text_rows (r ++ nl :: b) = text_rows b.
Proof.
  intro H. rewrite rows_app. unfold text_rows at 1. rewrite lines_no_nl by (now apply row_blank_nonl). cbn.
  rewrite row_blank_spec in H. destruct (has_text r); [discriminate|reflexivity].
Qed.

(** * The loop *)
Lemma find_marker w0 x t r : ~ occurs (w0 ++ [x]) (t ++ w0) -> find_sub (w0 ++ [x]) (t ++ (w0 ++ [x]) ++ r) = Some (t, r).
Proof.
  intro H. apply find_sub_first. intros b c E. destruct (Nat.le_gt_cases (length t) (length b)) as [L|L]; [exact L|]. exfalso. apply H.
  assert (exists y, t ++ w0 = b ++ (w0 ++ [x]) ++ y) as [y Hy]; [|now exists b, y].
  assert (firstn (length b + S (length w0)) (t ++ (w0 ++ [x]) ++ r) = b ++ w0 ++ [x]) as E1.
  { rewrite E. rewrite firstn_app_2. f_equal. rewrite firstn_app. rewrite app_length. cbn [length].
    replace (S (length w0) - (length w0 + 1)) with 0 by lia. rewrite firstn_O, app_nil_r.
    apply firstn_all2. rewrite app_length. cbn. lia. }
  assert (firstn (length b + S (length w0)) (t ++ (w0 ++ [x]) ++ r) = firstn (length b + S (length w0)) (t ++ w0)) as E2.
  { rewrite <- (app_assoc w0), !(app_assoc t). rewrite firstn_app.
    replace (length b + S (length w0) - length (t ++ w0)) with 0 by (rewrite app_length; lia). rewrite firstn_O. apply app_nil_r. }
  rewrite E2 in E1. exists (skipn (length b + S (length w0)) (t ++ w0)).
  rewrite <- (firstn_skipn (length b + S (length w0)) (t ++ w0)) at 1. rewrite E1. now rewrite <- !app_assoc.
Qed.
Lemma plain_suffix a t : plain (a ++ t) -> plain t.
Proof. intros H (x & y & E). apply H. exists (a ++ x), y. rewrite <- !app_assoc. now rewrite E. Qed.
Lemma split_at_spec c s a b : split_at c s = Some (a, b) -> s = a ++ c :: b /\ ~ In c a.
Proof.
  revert a b. induction s as [|x s IH]; cbn; intros a b; [discriminate|].
  destruct (ch_eqb x c) eqn:E.
  - apply ch_eqb_eq in E as ->. injection 1 as <- <-. auto.
  - destruct (split_at c s) as [[a' b']|]; [|discriminate]. injection 1 as <- <-.
    destruct (IH _ _ eq_refl) as [-> N]. split; [reflexivity|]. apply ch_eqb_neq in E. cbn. intuition congruence.
Qed.
(** the row removed ends inside the text behind the placeholder *)
Lemma post_in_text l post behind : template l -> template_text l = post ++ nl :: behind -> row_blank post = true ->
  exists t l', l = Text (post ++ nl :: t) :: l' /\ behind = t ++ template_text l' /\ template (Text t :: l').
Proof.
  intros Tl E B.
  assert (forall t rest, t ++ rest = post ++ nl :: behind -> (rest = [] \/ exists r, rest = "#"%char :: r) ->
    exists t', t = post ++ nl :: t' /\ behind = t' ++ rest) as K.
  { clear Tl E. intros t rest E R. revert t E. induction post as [|c post IH]; intros t E.
    - destruct t as [|x t]; cbn in E.
      + destruct R as [->|[r ->]]; discriminate.
      + injection E as -> E. now exists t.
    - destruct t as [|x t]; cbn in E.
      + destruct R as [->|[r ->]]; [discriminate|]. injection E as <- _. discriminate B.
      + injection E as -> E. cbn in B. apply andb_true_iff in B as [_ B]. destruct (IH B t E) as (t' & -> & ->). now exists t'. }
  inversion Tl as [t H El|t k l0 Pt Nk Tl0 El]; subst; cbn [template_text] in E.
  - destruct (K t [] E ltac:(now left)) as (t' & -> & ->). exists t', []. split; [reflexivity|]. split; [reflexivity|].
    constructor. intros (x & y & Q). apply H. exists (post ++ nl :: x), y. rewrite <- app_assoc. cbn [app]. now rewrite Q.
  - destruct (K t _ E) as (t' & -> & ->). { right. eexists. reflexivity. }
    exists t', (Hole k :: l0). split; [reflexivity|]. split; [reflexivity|]. constructor; auto.
    apply (plain_suffix (post ++ [nl])). now rewrite <- app_assoc.
Qed.
Lemma filled_text_app value done a b l : filled value done (Text (a ++ b) :: l) = a ++ filled value (done ++ a) (Text b :: l).
Proof. cbn. now rewrite <- !app_assoc. Qed.
Definition tidy_done (done : txt) : Prop := row_blank (last_row done) = true -> last_row done = [].
Lemma before_start done b : tidy_done done -> row_blank (last_row (done ++ b)) = true ->
  length done <= line_start (done ++ b) /\
  exists b1, b = b1 ++ last_row (done ++ b) /\ skipn (length done) (firstn (line_start (done ++ b)) (done ++ b)) = b1 /\
             (b1 = [] /\ column done = 0 \/ exists b0, b1 = b0 ++ [nl]).
Proof.
  intros TD B.
  assert (length done <= line_start (done ++ b) /\ (line_start (done ++ b) = length done -> column done = 0) /\
          (length done < line_start (done ++ b) -> exists b0 b2, b = b0 ++ nl :: b2 /\ last_row (done ++ b) = b2 /\ line_start (done ++ b) = S (length done + length b0))) as (H1 & H2 & H3).
  { destruct (row_cases b) as [(N & _ & _)|(b0 & b2 & -> & N & _)].
    - destruct (row_cases done) as [(Nd & Ed & Rd)|(d0 & d2 & -> & Nd & Ed & Rd)].
      + assert (~ In nl (done ++ b)) as N' by (rewrite in_app_iff; tauto).
        rewrite (line_start_none _ N') in *. unfold last_row in B at 1. rewrite (line_start_none _ N') in B. cbn [skipn] in B.
        rewrite row_blank_app, andb_true_iff in B. destruct B as [B _].
        assert (done = []) as ->; [rewrite <- Rd; apply TD; now rewrite Rd|]. cbn. split; [lia|]. split; [reflexivity|lia].
      + assert (~ In nl (d2 ++ b)) as N' by (rewrite in_app_iff; tauto).
        replace ((d0 ++ nl :: d2) ++ b) with (d0 ++ nl :: (d2 ++ b)) in * by (now rewrite <- app_assoc).
        rewrite line_start_nl by exact N'.
        assert (last_row (d0 ++ nl :: (d2 ++ b)) = d2 ++ b) as LR.
        { destruct (row_cases (d0 ++ nl :: (d2 ++ b))) as [(X & _)|(y & z & E & Nz & Es & ->)]; [exfalso; apply X, in_app_iff; right; now left|].
          rewrite line_start_nl in Es by exact N'. injection Es as Es. apply app_same_len in E as [_ E]; [|exact Es]. now injection E as ->. }
        rewrite LR, row_blank_app, andb_true_iff in B. destruct B as [B _].
        assert (d2 = []) as ->; [rewrite <- Rd; apply TD; now rewrite Rd|].
        rewrite app_length. cbn [length]. split; [lia|]. split; [|lia].
        intros _. rewrite column_row, Rd. reflexivity.
    - replace (done ++ b0 ++ nl :: b2) with ((done ++ b0) ++ nl :: b2) in * by (now rewrite <- app_assoc).
      rewrite line_start_nl by exact N. rewrite app_length. split; [lia|]. split; [lia|].
      intros _. exists b0, b2. split; [reflexivity|]. split; [|reflexivity].
      destruct (row_cases ((done ++ b0) ++ nl :: b2)) as [(X & _)|(y & z & E & Nz & Es & ->)]; [exfalso; apply X, in_app_iff; right; now left|].
      rewrite line_start_nl in Es by exact N. injection Es as Es. apply app_same_len in E as [_ E]; [|exact Es]. now injection E as ->. }
  split; [exact H1|]. destruct (Nat.eq_dec (line_start (done ++ b)) (length done)) as [E|N].
  - exists []. cbn [app]. rewrite E. split.
    + unfold last_row. rewrite E, skipn_app, skipn_all, Nat.sub_diag. reflexivity.
    + split; [|left; auto]. rewrite firstn_app, Nat.sub_diag, firstn_all. rewrite firstn_O, app_nil_r. apply skipn_all.
  - destruct H3 as (b0 & b2 & -> & -> & E); [lia|]. exists (b0 ++ [nl]). split; [now rewrite <- app_assoc|]. split; [|right; now exists b0].
    rewrite E. replace (done ++ b0 ++ nl :: b2) with ((done ++ b0 ++ [nl]) ++ b2) by (now rewrite <- !app_assoc).
    replace (S (length done + length b0)) with (length (done ++ b0 ++ [nl])) by (rewrite !app_length; cbn; lia).
    rewrite firstn_app, Nat.sub_diag, firstn_all. rewrite firstn_O, app_nil_r.
    rewrite skipn_app, skipn_all, Nat.sub_diag. reflexivity.
Qed.
Lemma last_row_app a b : ~ In nl b -> last_row (a ++ b) = last_row a ++ b.
Proof.
  intro N. destruct (row_cases a) as [(Na & _ & R)|(x & y & -> & Ny & _ & R)].
  - rewrite R. unfold last_row. rewrite line_start_none; [reflexivity|]. rewrite in_app_iff; tauto.
  - rewrite R. rewrite <- app_assoc. cbn [app].
    destruct (row_cases (x ++ nl :: (y ++ b))) as [(X & _)|(x' & z & E & Nz & Es & ->)]; [exfalso; apply X, in_app_iff; right; now left|].
    rewrite line_start_nl in Es by (rewrite in_app_iff; tauto). injection Es as Es. apply app_same_len in E as [_ E]; [|exact Es]. now injection E as ->.
Qed.
Lemma tidy_done_hole x k : tidy_done (x ++ L "#^#" ++ k ++ L "#$#").
Proof.
  unfold tidy_done. replace (x ++ L "#^#" ++ k ++ L "#$#") with ((x ++ L "#^#" ++ k) ++ L "#$#") by now rewrite <- !app_assoc.
  rewrite last_row_app by (cbn; intuition discriminate). rewrite row_blank_app, andb_true_iff. intros [_ H]. discriminate.
Qed.
Lemma tidy_done_nl x : tidy_done (x ++ [nl]) /\ column (x ++ [nl]) = 0.
Proof.
  assert (last_row (x ++ [nl]) = []) as E.
  { unfold last_row. rewrite (line_start_nl x []) by auto. apply skipn_all2. rewrite app_length. cbn. lia. }
  split; [intros _; exact E|]. now rewrite column_row, E.
Qed.

Lemma column_hole x k : column (x ++ L "#^#" ++ k ++ L "#$#") <> 0.
Proof.
  rewrite column_row. replace (x ++ L "#^#" ++ k ++ L "#$#") with ((x ++ L "#^#" ++ k) ++ L "#$#") by now rewrite <- !app_assoc.
  rewrite last_row_app by (cbn; intuition discriminate). rewrite app_length. cbn. lia.
Qed.
Definition same_rows (done out naive : txt) : Prop :=
  (column done = 0 -> text_rows out = text_rows naive) /\
  (column done <> 0 -> forall x, text_rows (x ++ out) = text_rows (x ++ naive)).
Lemma same_rows_all done out naive : (forall x, text_rows (x ++ out) = text_rows (x ++ naive)) -> same_rows done out naive.
Proof. intro H. split; [intros _; exact (H [])|auto]. Qed.

Lemma process_spec repl : forall n done l, template l -> length (template_text l) < n -> tidy_done done ->
  exists out, process_loop n repl done (template_text l) = Ok out /\
    same_rows done out (filled (fun k => lookup k repl) done l) /\
    ((forall k, In k (holes l) -> lookup k repl <> []) -> out = filled (fun k => lookup k repl) done l).
Proof.
  induction n as [|n IH]; intros done l Tl Hn TD; [lia|].
  set (value := fun k => lookup k repl) in *.
  inversion Tl as [t H El|t k l0 Pt Nk Tl0 El]; subst.
  - cbn [template_text filled]. rewrite !app_nil_r. exists t. split; [|split; [now apply same_rows_all|reflexivity]]. cbn [process_loop].
    destruct t as [|c t]; [reflexivity|]. now rewrite (proj2 (find_sub_none (L "#^#") (c :: t)) H).
  - cbn [template_text].
    assert (Hf1 : find_sub (L "#^#") (t ++ T "#^#" ++ k ++ T "#$#" ++ template_text l0) = Some (t, k ++ T "#$#" ++ template_text l0)).
    { apply (find_marker (T "#^") "#"%char). exact Pt. }
    assert (Hf2 : find_sub (L "#$#") (k ++ T "#$#" ++ template_text l0) = Some (k, template_text l0)).
    { apply (find_marker (T "#$") "#"%char). exact Nk. }
    assert (Hlen : length (template_text l0) < n).
    { cbn [template_text] in Hn. rewrite !app_length in Hn. cbn in Hn. lia. }
    cbn [process_loop]. rewrite Hf1, Hf2. clear Hf1 Hf2.
    assert (exists c r, t ++ T "#^#" ++ k ++ T "#$#" ++ template_text l0 = c :: r) as (c0 & r0 & ->).
    { destruct t; eexists; eexists; reflexivity. }
    fold (last_row (done ++ t)). change (lookup k repl) with (value k).
    change (L "#^#" ++ k ++ L "#$#") with (T "#^#" ++ k ++ T "#$#"). set (hole := T "#^#" ++ k ++ T "#$#").
    match goal with |- context [match ?d with Some _ => _ | None => _ end] => set (drop := d) end.
    assert (drop = None \/ exists post behind, drop = Some (post, behind) /\ value k = [] /\ row_blank (last_row (done ++ t)) = true /\
             template_text l0 = post ++ nl :: behind /\ row_blank post = true) as HD.
    { unfold drop. destruct (value k) eqn:Ev; cbn [is_nil negb]; [|now left].
      destruct (row_blank (last_row (done ++ t))) eqn:Eb; cbn [negb]; [|now left].
      destruct (split_at nl (template_text l0)) as [[post behind]|] eqn:Es; [|now left].
      destruct (row_blank post) eqn:Ep; [|now left]. right. apply split_at_spec in Es as [Es _]. eauto 10. }
    clearbody drop. destruct HD as [->|(post & behind & -> & Ev & Eb & Et & Ep)].
    + rewrite indent_text. cbn [bind].
      destruct (IH ((done ++ t) ++ hole) l0 Tl0 Hlen (tidy_done_hole _ _)) as (out & -> & SR & EQ). cbn [bind].
      eexists. split; [reflexivity|]. cbn [filled]. rewrite (column_row (done ++ t)). fold hole. split.
      * apply same_rows_all. intro x. destruct SR as [_ SR]. rewrite !app_assoc. apply SR. apply column_hole.
      * intro NE. cbn [holes] in NE. rewrite EQ; [reflexivity|]. intros k' I. apply NE. now right.
    + destruct (before_start done t TD Eb) as (H1 & b1 & Eb1 & E2 & HB).
      replace (length done <=? line_start (done ++ t)) with true by lia.
      destruct (post_in_text l0 post behind Tl0 Et Ep) as (t2 & l2 & -> & -> & Tl2).
      destruct (tidy_done_nl ((done ++ t) ++ hole ++ post)) as [TD2 C2].
      replace ((done ++ t) ++ hole ++ post ++ [nl]) with (((done ++ t) ++ hole ++ post) ++ [nl]) by now rewrite <- !app_assoc.
      destruct (IH (((done ++ t) ++ hole ++ post) ++ [nl]) (Text t2 :: l2) Tl2) as (out & E3 & SR & EQ); [|exact TD2|].
      { cbn [template_text] in Hlen |- *. rewrite !app_length in *. cbn [length] in Hlen. lia. }
      cbn [template_text] in E3. rewrite E3. cbn [bind]. rewrite E2. eexists. split; [reflexivity|].
      assert (filled value done (Text t :: Hole k :: Text (post ++ nl :: t2) :: l2) =
              b1 ++ (last_row (done ++ t) ++ post) ++ nl :: filled value (((done ++ t) ++ hole ++ post) ++ [nl]) (Text t2 :: l2)) as EF.
      { change (filled value done (Text t :: Hole k :: Text (post ++ nl :: t2) :: l2)) with
          (t ++ indented (column (done ++ t)) (value k) ++ filled value ((done ++ t) ++ hole) (Text (post ++ nl :: t2) :: l2)).
        rewrite Ev. replace (indented (column (done ++ t)) []) with (@nil ascii) by reflexivity. cbn [app].
        replace (post ++ nl :: t2) with ((post ++ [nl]) ++ t2) by now rewrite <- app_assoc.
        rewrite filled_text_app. rewrite Eb1 at 1. rewrite <- !app_assoc. reflexivity. }
      split.
      * assert (row_blank (last_row (done ++ t) ++ post) = true) as BP by (now rewrite row_blank_app, Eb, Ep).
        destruct SR as [SR _]. specialize (SR C2). destruct HB as [[-> HC]|[b0 ->]].
        -- split; [|lia]. intros _. rewrite EF. cbn [app]. now rewrite blank_rows.
        -- apply same_rows_all. intro x. rewrite EF. rewrite <- !app_assoc. cbn [app]. rewrite !(app_assoc x b0), !rows_app. f_equal.
           rewrite (app_assoc (last_row (done ++ t)) post), blank_rows by exact BP. rewrite SR. now rewrite <- !app_assoc.
      * intro NE. exfalso. apply (NE k); [now left|exact Ev].
Qed.

(** * Every text is a template, or has a placeholder without end *)
Lemma marker_minimal w0 x t r : (forall b c, t ++ (w0 ++ [x]) ++ r = b ++ (w0 ++ [x]) ++ c -> length t <= length b) ->
  ~ occurs (w0 ++ [x]) (t ++ w0).
Proof.
  intros M (b & c & E). specialize (M b (c ++ [x] ++ r)).
  assert (length t <= length b) as L.
  { apply M. replace (t ++ (w0 ++ [x]) ++ r) with ((t ++ w0) ++ [x] ++ r) by (now rewrite <- !app_assoc). rewrite E. now rewrite <- !app_assoc. }
  apply (f_equal (@length _)) in E. rewrite !app_length in E. cbn in E. lia.
Qed.
Lemma template_total : forall n s, length s < n ->
  (exists l, template l /\ template_text l = s) \/
  (exists a b, s = a ++ T "#^#" ++ b /\ ~ occurs (T "#$#") b).
Proof.
  induction n as [|n IH]; intros s Hn; [lia|].
  destruct (find_sub (T "#^#") s) as [[t a]|] eqn:F1.
  - apply find_sub_spec in F1 as [-> M1]. destruct (find_sub (T "#$#") a) as [[k r]|] eqn:F2.
    + apply find_sub_spec in F2 as [-> M2].
      destruct (IH r) as [(l & Tl & <-)|(x & y & -> & N)].
      { rewrite !app_length in Hn. cbn in Hn. lia. }
      * left. exists (Text t :: Hole k :: l). split; [|reflexivity]. constructor; [| |exact Tl].
        -- apply (marker_minimal (T "#^") "#"%char _ _ M1).
        -- apply (marker_minimal (T "#$") "#"%char _ _ M2).
      * right. exists (t ++ T "#^#" ++ k ++ T "#$#" ++ x), y. split; [now rewrite <- !app_assoc|exact N].
    + right. exists t, a. split; [reflexivity|now apply find_sub_none].
  - left. exists [Text s]. split; [|cbn; apply app_nil_r]. constructor. now apply find_sub_none.
Qed.

(** * Tidying *)
Definition solid_rows (s : txt) : list txt := map chomp (text_rows s).
(** [thinner s t]: [t] is [s] without some blanks in front of newlines and
    without some newlines in front of newlines *)
Inductive thinner : txt -> txt -> Prop :=
| thin_nil : thinner [] []
| thin_same c s t : thinner s t -> thinner (c :: s) (c :: t)
| thin_blank b s t : forallb is_sp_tab b = true -> thinner s t -> thinner (b ++ nl :: s) (nl :: t)
| thin_line s t : thinner (nl :: s) t -> thinner (nl :: nl :: s) t.
Lemma thin_refl s : thinner s s. Proof. induction s; constructor; auto. Qed.
Lemma solid_app a b : solid_rows (a ++ nl :: b) = solid_rows a ++ solid_rows b.
Proof. unfold solid_rows. rewrite rows_app. apply map_app. Qed.
Lemma sp_tab_blank c : is_sp_tab c = true -> blank_char c = true.
Proof. unfold is_sp_tab. rewrite orb_true_iff, !ch_eqb_eq. intros [->| ->]; reflexivity. Qed.
Lemma sp_tab_not_nl c : is_sp_tab c = true -> c <> nl.
Proof. intros H ->. discriminate. Qed.
Lemma has_text_blank a b : forallb blank_char b = true -> has_text (a ++ b) = has_text a.
Proof.
  intro H. unfold has_text. rewrite existsb_app. replace (existsb (fun c => negb (blank_char c)) b) with false; [now rewrite orb_false_r|].
  symmetry. induction b as [|c b IH]; [reflexivity|]. cbn in *. apply andb_true_iff in H as [H1 H2]. rewrite H1. now apply IH.
Qed.
Lemma chomp_blank a b : forallb blank_char b = true -> chomp (a ++ b) = chomp a.
Proof.
  intro H. induction a as [|c a IH]; cbn [app].
  - destruct b as [|c b]; [reflexivity|]. cbn [chomp]. change (c :: b) with ([] ++ c :: b). now rewrite has_text_blank by exact H.
  - cbn [chomp]. change (c :: a ++ b) with ((c :: a) ++ b). rewrite has_text_blank by exact H. now rewrite IH.
Qed.
Lemma solid_blank_end : forall a b, forallb is_sp_tab b = true -> solid_rows (a ++ b) = solid_rows a.
Proof.
  intros a b H.
  assert (forallb blank_char b = true) as HB.
  { rewrite forallb_forall in *. intros c I. now apply sp_tab_blank, H. }
  assert (~ In nl b) as HN.
  { rewrite forallb_forall in H. intro I. now apply (sp_tab_not_nl nl (H _ I)). }
  assert (forall r, ~ In nl r -> solid_rows r = if has_text r then [chomp r] else []) as ONE.
  { intros r N. unfold solid_rows, text_rows. rewrite lines_no_nl by exact N. cbn. now destruct (has_text r). }
  assert (forall r, ~ In nl r -> solid_rows (r ++ b) = solid_rows r) as ROW.
  { intros r N. rewrite !ONE; [|exact N|rewrite in_app_iff; tauto]. now rewrite has_text_blank, chomp_blank by exact HB. }
  destruct (row_cases a) as [(N & _)|(x & y & -> & N & _)].
  - now apply ROW.
  - rewrite <- app_assoc. cbn [app]. rewrite !solid_app. f_equal. now apply ROW.
Qed.
Lemma thinner_rows s t : thinner s t -> forall x, solid_rows (x ++ s) = solid_rows (x ++ t).
Proof.
  induction 1 as [|c s t H IH|b s t B H IH|s t H IH]; intro x.
  - reflexivity.
  - replace (x ++ c :: s) with ((x ++ [c]) ++ s) by (now rewrite <- app_assoc).
    replace (x ++ c :: t) with ((x ++ [c]) ++ t) by (now rewrite <- app_assoc). apply IH.
  - rewrite app_assoc, !solid_app, solid_blank_end by exact B. f_equal. exact (IH []).
  - rewrite <- (IH x). rewrite !solid_app. reflexivity.
Qed.
Lemma clean_spaces_thin : forall n s, length s < n ->
  thinner s (clean_spaces None s) /\ thinner s (clean_spaces (Some false) s) /\
  (forall b r, s = b ++ nl :: r -> forallb is_sp_tab b = true -> exists t, clean_spaces (Some true) s = nl :: t /\ thinner r t).
Proof.
  induction n as [|n IH]; intros s Hn; [lia|].
  destruct s as [|c s]; [split; [constructor|]; split; [constructor|]; intros [|? ?] ? E; discriminate|].
  cbn in Hn. destruct (IH s) as (I1 & I2 & I3); [lia|]. cbn [clean_spaces]. split; [|split].
  - destruct (ch_eqb c " ") eqn:E1; cbn [negb]; [|now constructor].
    destruct (existsb (ch_eqb nl) s) eqn:E2; cbn [negb]; [|apply thin_refl].
    destruct (drop_while_split is_sp_tab s) as (b & Es & Hb).
    destruct (drop_while is_sp_tab s) as [|d s''] eqn:E3.
    + exfalso. rewrite app_nil_r in Es. subst b. apply existsb_exists in E2 as (y & Iy & Ey). apply ch_eqb_eq in Ey as <-.
      rewrite forallb_forall in Hb. now apply (sp_tab_not_nl nl (Hb _ Iy)).
    + destruct (ch_eqb d nl) eqn:E4; [|constructor; exact I2].
      apply ch_eqb_eq in E4 as ->. destruct (I3 b s'' Es Hb) as (t & -> & Ht). rewrite Es.
      apply (thin_blank (c :: b)); [|exact Ht]. cbn. rewrite Hb. apply ch_eqb_eq in E1 as ->. reflexivity.
  - destruct (ch_eqb c nl); now constructor.
  - intros b r E Hb. destruct b as [|x b]; cbn in E.
    + injection E as -> ->. rewrite ch_eqb_refl. eauto.
    + injection E as -> ->. cbn in Hb. apply andb_true_iff in Hb as [Hx Hb].
      replace (ch_eqb x nl) with false by (symmetry; apply ch_eqb_neq; now apply sp_tab_not_nl). now apply (I3 b r).
Qed.
Lemma clean_newlines_thin : forall s, thinner s (clean_newlines s).
Proof.
  induction s as [|c s IH]; [constructor|]. cbn [clean_newlines]. destruct (ch_eqb c nl) eqn:E; cbn [negb]; [|now constructor].
  apply ch_eqb_eq in E as ->.
  assert (2 <= count_nl (nl :: s) -> exists s', s = nl :: s') as NX.
  { cbn [count_nl]. rewrite ch_eqb_refl. destruct s as [|d s]; cbn; [lia|]. destruct (ch_eqb d nl) eqn:E; [|lia].
    apply ch_eqb_eq in E as ->. eauto. }
  destruct (length (nl :: s) <=? count_nl (nl :: s)) eqn:E1.
  - destruct s as [|d s]; [constructor; exact IH|]. cbn [is_nil]. destruct NX as [s' Es]; [cbn [length] in E1; lia|].
    rewrite Es in *. now constructor.
  - destruct (2 <? count_nl (nl :: s)) eqn:E2; [|now constructor]. destruct NX as [s' ->]; [lia|]. now constructor.
Qed.
Lemma clean_brackets_thin : forall s k, thinner s (clean_brackets k s).
Proof.
  induction s as [|c s IH]; intro k; [constructor|]. cbn [clean_brackets]. destruct k as [|k]; [|now constructor].
  destruct (ch_eqb c nl) eqn:E; cbn [negb]; [|now constructor]. apply ch_eqb_eq in E as ->.
  destruct (length (nl :: s) <=? count_nl (nl :: s)); [apply thin_refl|].
  destruct (count_nl (nl :: s) <=? 1) eqn:E1; [now constructor|].
  assert (exists s', s = nl :: s') as [s' Es].
  { revert E1. cbn [count_nl]. rewrite ch_eqb_refl. destruct s as [|d s]; cbn; [discriminate|]. destruct (ch_eqb d nl) eqn:E; [|discriminate].
    apply ch_eqb_eq in E as ->. eauto. }
  destruct (drop_while is_sp_tab (skipn (count_nl (nl :: s)) (nl :: s))) as [|d text]; [apply thin_refl|].
  destruct (negb (ch_eqb d "}")); [now constructor|].
  destruct (strip (L "} // namespace") (d :: text)) as [[|? ?]|]; try (now constructor);
    subst s; constructor; apply IH.
Qed.
Lemma tidy_rows s : solid_rows (genDoTidyCode s) = solid_rows s.
Proof.
  unfold genDoTidyCode. symmetry.
  transitivity (solid_rows (clean_spaces None s)).
  { apply (thinner_rows _ _ (proj1 (clean_spaces_thin (S (length s)) s ltac:(lia))) []). }
  transitivity (solid_rows (clean_newlines (clean_spaces None s))).
  - apply (thinner_rows _ _ (clean_newlines_thin _) []).
  - apply (thinner_rows _ _ (clean_brackets_thin _ _) []).
Qed.
