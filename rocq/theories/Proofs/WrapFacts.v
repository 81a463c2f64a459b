(** Facts about lines and words, and genStrMakeMultiline. *)
From Coq Require Import ZifyBool ZifyNat.
From Verif.Model Require Import Base Common GenUtil.
From Verif.Spec Require Import Texts GenSpec.
From Verif.Proofs Require Import BaseFacts CommonFacts GenFacts.
Local Open Scope nat_scope.
Local Open Scope list_scope.

(** * Cutting *)
Lemma cut_nonnil p s : cut_at p s <> [].
Proof. induction s as [|c s IH]; cbn; [discriminate|]. destruct (p c); [discriminate|]. destruct (cut_at p s); discriminate. Qed.
Lemma cut_app p a c b : p c = true -> cut_at p (a ++ c :: b) = cut_at p a ++ cut_at p b.
Proof.
  intro Hc. induction a as [|x a IH]; cbn; [now rewrite Hc|]. rewrite IH.
  destruct (p x); [reflexivity|]. pose proof (cut_nonnil p a). destruct (cut_at p a); [congruence|reflexivity].
Qed.
Lemma cut_none p s : forallb (fun c => negb (p c)) s = true -> cut_at p s = [s].
Proof.
  induction s as [|c s IH]; cbn; [reflexivity|]. rewrite andb_true_iff. intros [H1 H2].
  destruct (p c); [discriminate|]. now rewrite IH.
Qed.
Lemma cut_In p s l : In l (cut_at p s) -> exists a b, s = a ++ l ++ b.
Proof.
  revert l. induction s as [|c s IH]; cbn; intros l H.
  - destruct H as [<-|[]]. now exists [], [].
  - destruct (p c).
    + destruct H as [<-|H]; [now exists [], (c :: s)|]. apply IH in H as (a & b & ->). now exists (c :: a), b.
    + pose proof (cut_nonnil p s) as N. destruct (cut_at p s) as [|w ws] eqn:E; [congruence|].
      destruct H as [<-|H].
      * assert (exists b, s = w ++ b) as [b ->].
        { clear IH N. revert w ws E. induction s as [|d s IH]; cbn; intros w ws E.
          - injection E as <- _. now exists [].
          - destruct (p d); [injection E as <- _; now exists (d :: s)|].
            destruct (cut_at p s) as [|w' ws'] eqn:E'; [injection E as <- _; now exists s|].
            injection E as <- _. destruct (IH _ _ eq_refl) as [b ->]. now exists b. }
        now exists [], b.
      * destruct (IH l) as (a & b & ->); [now right|]. now exists (c :: a), b.
Qed.
Lemma cut_free p s : Forall (fun l => forallb (fun c => negb (p c)) l = true) (cut_at p s).
Proof.
  induction s as [|c s IH]; cbn; [repeat constructor|]. destruct (p c) eqn:E; [now constructor|].
  pose proof (cut_nonnil p s). destruct (cut_at p s) as [|w ws]; [congruence|].
  inversion IH; subst. constructor; [|assumption]. cbn. now rewrite E.
Qed.
Lemma nl_newline : nl = newline. Proof. reflexivity. Qed.
Lemma nl_is c : Ascii.eqb newline c = true <-> c = nl.
Proof. rewrite Ascii.eqb_eq, nl_newline. intuition congruence. Qed.
Lemma nl_white : white nl = true. Proof. reflexivity. Qed.
Lemma lines_app a b : lines_of (a ++ nl :: b) = lines_of a ++ lines_of b.
Proof. apply cut_app. reflexivity. Qed.
Lemma words_app a c b : white c = true -> words_of (a ++ c :: b) = words_of a ++ words_of b.
Proof. intro H. unfold words_of. rewrite cut_app by exact H. apply filter_app. Qed.
Lemma lines_join_gen s sep : join (newline :: sep) (lines_of s) =
  flat_map (fun c => if Ascii.eqb newline c then newline :: sep else [c]) s.
Proof.
  induction s as [|c s IH]; [reflexivity|]. cbn [flat_map]. rewrite <- IH. unfold lines_of. cbn [cut_at].
  pose proof (cut_nonnil (Ascii.eqb newline) s) as N.
  destruct (Ascii.eqb newline c).
  - rewrite join_cons2 by exact N. reflexivity.
  - destruct (cut_at (Ascii.eqb newline) s) as [|w [|w' ws]]; [congruence|reflexivity|reflexivity].
Qed.
Lemma lines_join s : join [newline] (lines_of s) = s.
Proof.
  rewrite lines_join_gen. induction s as [|c s IH]; [reflexivity|]. cbn [flat_map]. rewrite IH.
  destruct (Ascii.eqb newline c) eqn:E; [apply Ascii.eqb_eq in E as <-|]; reflexivity.
Qed.

(** * Positions *)
Lemma last_upto_some p s : forall k i, last_upto p s k = Some i ->
  i <= k /\ (exists c, nth_error s i = Some c /\ p c = true) /\
  forall j c, i < j <= k -> nth_error s j = Some c -> p c = false.
Proof.
  induction s as [|x s IH]; intros k i; cbn; [discriminate|].
  destruct k as [|k].
  - destruct (p x) eqn:E; [|discriminate]. injection 1 as <-. split; [lia|]. split; [now exists x|]. intros; lia.
  - destruct (last_upto p s k) as [i'|] eqn:E.
    + injection 1 as <-. apply IH in E as (H1 & (c & Hc) & H3). split; [lia|]. split; [now exists c|].
      intros [|j] d Hj Hd; [lia|]. cbn in Hd. eapply (H3 j); [lia|exact Hd].
    + destruct (p x) eqn:Ex; [|discriminate]. injection 1 as <-. split; [lia|]. split; [now exists x|].
      intros [|j] d Hj Hd; [lia|]. cbn in Hd. clear IH.
      revert k j E Hj Hd. induction s as [|y s IH]; intros k j E Hj Hd; [destruct j; discriminate|].
      cbn in E. destruct k as [|k].
      * destruct (p y) eqn:Ey; [discriminate|]. assert (j = 0) as -> by lia. cbn in Hd. now injection Hd as <-.
      * destruct (last_upto p s k) eqn:E'; [discriminate|]. destruct (p y) eqn:Ey; [discriminate|].
        destruct j as [|j]; [cbn in Hd; now injection Hd as <-|]. cbn in Hd. eapply (IH k j); [exact E'|lia|exact Hd].
Qed.
Lemma last_upto_none p s : forall k, last_upto p s k = None -> forall j c, j <= k -> nth_error s j = Some c -> p c = false.
Proof.
  induction s as [|y s IH]; intros k E j c Hj Hd; [destruct j; discriminate|].
  cbn in E. destruct k as [|k].
  - destruct (p y) eqn:Ey; [discriminate|]. assert (j = 0) as -> by lia. cbn in Hd. now injection Hd as <-.
  - destruct (last_upto p s k) eqn:E'; [discriminate|]. destruct (p y) eqn:Ey; [discriminate|].
    destruct j as [|j]; [cbn in Hd; now injection Hd as <-|]. cbn in Hd. eapply (IH k E' j); [lia|exact Hd].
Qed.
Lemma first_from_some p s : forall k i, first_from p s k = Some i ->
  k <= i /\ (exists c, nth_error s i = Some c /\ p c = true) /\
  forall j c, k <= j < i -> nth_error s j = Some c -> p c = false.
Proof.
  induction s as [|x s IH]; intros k i; cbn; [discriminate|]. destruct k as [|k].
  - destruct (p x) eqn:E.
    + injection 1 as <-. split; [lia|]. split; [now exists x|]. intros; lia.
    + destruct (first_from p s 0) as [i'|] eqn:F; [|discriminate]. injection 1 as <-.
      apply IH in F as (H1 & (c & Hc) & H3). split; [lia|]. split; [now exists c|].
      intros [|j] d Hj Hd; cbn in Hd; [now injection Hd as <-|]. eapply (H3 j); [lia|exact Hd].
  - destruct (first_from p s k) as [i'|] eqn:F; [|discriminate]. injection 1 as <-.
    apply IH in F as (H1 & (c & Hc) & H3). split; [lia|]. split; [now exists c|].
    intros [|j] d Hj Hd; cbn in Hd; [lia|]. eapply (H3 j); [lia|exact Hd].
Qed.
Lemma first_from_none p s : forall k, first_from p s k = None -> forall j c, k <= j -> nth_error s j = Some c -> p c = false.
Proof.
  induction s as [|x s IH]; intros k E j c Hj Hd; [destruct j; discriminate|]. cbn in E. destruct k as [|k].
  - destruct (p x) eqn:Ex; [discriminate|]. destruct (first_from p s 0) eqn:F; [discriminate|].
    destruct j as [|j]; cbn in Hd; [now injection Hd as <-|]. eapply (IH 0 F j); [lia|exact Hd].
  - destruct (first_from p s k) eqn:F; [discriminate|]. destruct j as [|j]; cbn in Hd; [lia|]. eapply (IH k F j); [lia|exact Hd].
Qed.
Lemma split_nth {A} (s : list A) i c : nth_error s i = Some c -> s = firstn i s ++ c :: skipn (S i) s.
Proof.
  revert i. induction s as [|x s IH]; intros [|i] H; cbn in *; try discriminate; [now injection H as <-|]. now rewrite <- IH.
Qed.
Lemma sp_tab_white c : is_sp_tab c = true -> white c = true.
Proof. unfold is_sp_tab. rewrite orb_true_iff, !ch_eqb_eq. intros [->| ->]; reflexivity. Qed.
Lemma nl_eqb_white c : ch_eqb nl c = true -> white c = true.
Proof. rewrite ch_eqb_eq. now intros <-. Qed.

(** * What the loop does with a text *)
(** a text behind [pos] is kept, or cut at a white character *)
Inductive wraps (len : nat) (drop : bool) : txt -> txt -> Prop :=
| wraps_end s : (length s <= len \/ forall i c, 1 <= i -> nth_error s i = Some c -> is_sp_tab c = false) ->
    wraps len drop s s
| wraps_cut a c s r : white c = true ->
    (length a <= len \/ length a < 2 * len \/ forall i c, 1 <= i -> nth_error a i = Some c -> is_sp_tab c = false) ->
    wraps len drop s r ->
    wraps len drop (a ++ c :: s) (a ++ (if drop then [] else [c]) ++ nl :: r).
Lemma multiline_wraps len drop : forall n s, length s < n -> exists r, multiline_loop n len drop s = Ok r /\ wraps len drop s r.
Proof.
  induction n as [|n IH]; intros s Hn; [lia|]. cbn [multiline_loop].
  destruct (length s <=? len) eqn:El.
  { exists s. split; [reflexivity|]. constructor. left. lia. }
  assert (forall p c, nth_error s p = Some c -> white c = true ->
    (p <= len \/ p < 2 * len \/ forall i c, 1 <= i -> i < p -> nth_error s i = Some c -> is_sp_tab c = false) ->
    exists r, (r0 <- multiline_loop n len drop (skipn (S p) s) ;;
      Ok (firstn p s ++ (if drop then [] else firstn 1 (skipn p s)) ++ [nl] ++ r0)) = Ok r /\ wraps len drop s r) as INS.
  { intros p c Hc Hw Hp. assert (p < length s) as Hlt by (apply nth_error_Some; congruence).
    destruct (IH (skipn (S p) s)) as (r & -> & W); [rewrite skipn_length; lia|].
    eexists. split; [reflexivity|]. rewrite (split_nth _ _ _ Hc) at 1.
    replace (firstn 1 (skipn p s)) with [c].
    2: { rewrite (split_nth _ _ _ Hc) at 1. rewrite skipn_app, firstn_length, Nat.min_l by lia.
         rewrite skipn_all2 by (rewrite firstn_length; lia). now rewrite Nat.sub_diag. }
    apply wraps_cut; [exact Hw| |exact W].
    rewrite firstn_length, Nat.min_l by lia. destruct Hp as [Hp|[Hp|Hp]]; [auto|auto|right; right].
    intros i d Hi Hd. assert (i < p) as Hip.
    { assert (i < length (firstn p s)) by (apply nth_error_Some; congruence). rewrite firstn_length in *. lia. }
    eapply (Hp i); [exact Hi|exact Hip|]. rewrite (split_nth _ _ _ Hc). rewrite nth_error_app1; [exact Hd|].
    rewrite firstn_length; lia. }
  destruct (last_upto (ch_eqb nl) s len) as [p|] eqn:Enl.
  { apply last_upto_some in Enl as (Hp & (c & Hc & Hw) & _). apply (INS p c Hc); [now apply nl_eqb_white|left; exact Hp]. }
  assert (forall i c, 1 <= i <= len -> nth_error s i = Some c -> is_sp_tab c = true ->
     exists q, last_upto is_sp_tab s len = Some (S q)) as PRE.
  { intros i c Hi Hc Ht. destruct (last_upto is_sp_tab s len) as [[|q]|] eqn:E; [|eauto|].
    - apply last_upto_some in E as (_ & _ & H). rewrite (H i c) in Ht; [discriminate|lia|exact Hc].
    - pose proof (last_upto_none _ _ _ E i c) as H. rewrite H in Ht; [discriminate|lia|exact Hc]. }
  destruct (last_upto is_sp_tab s len) as [[|q]|] eqn:Epre.
  1, 3: assert (forall i c, 1 <= i <= len -> nth_error s i = Some c -> is_sp_tab c = false) as NOPRE by
      (intros i c Hi Hc; destruct (is_sp_tab c) eqn:Ht; [destruct (PRE i c Hi Hc Ht); discriminate|reflexivity]);
    cbn [Nat.eqb andb]; destruct (first_from is_sp_tab s (S len)) as [p|] eqn:Epost;
    [ apply first_from_some in Epost as (Hp & (c & Hc & Hw) & Hno);
      assert (p < length s) as Hlt by (apply nth_error_Some; congruence);
      replace (length s <=? p) with false by lia;
      apply (INS p c Hc); [now apply sp_tab_white|]; right; right; intros i d Hi Hip Hd;
      destruct (Nat.le_gt_cases i len); [apply (NOPRE i d); [lia|exact Hd]|apply (Hno i d); [lia|exact Hd]]
    | rewrite Nat.leb_refl; exists s; split; [reflexivity|]; constructor; right; intros i d Hi Hd;
      destruct (Nat.le_gt_cases i len); [apply (NOPRE i d); [lia|exact Hd]|];
      eapply first_from_none; [exact Epost| |exact Hd]; lia ].
  apply last_upto_some in Epre as (Hq & (c & Hc & Hw) & _). cbn [Nat.eqb andb].
  assert (exists r, (r0 <- multiline_loop n len drop (skipn (S (S q)) s) ;;
      Ok (firstn (S q) s ++ (if drop then [] else firstn 1 (skipn (S q) s)) ++ [nl] ++ r0)) = Ok r /\ wraps len drop s r) as INSQ.
  { apply (INS (S q) c Hc); [now apply sp_tab_white|left; exact Hq]. }
  destruct (first_from is_sp_tab s (S len)) as [p|] eqn:Epost.
  - destruct (length s <=? p); [exact INSQ|]. destruct (len - S q <=? p - len) eqn:Ed; [exact INSQ|].
    apply first_from_some in Epost as (Hp & (d & Hd & Hdw) & Hno).
    apply (INS p d Hd); [now apply sp_tab_white|]. right; left. lia.
  - rewrite Nat.leb_refl. exact INSQ.
Qed.
Lemma wraps_words len drop s r : wraps len drop s r -> words_of r = words_of s.
Proof.
  induction 1 as [s _|a c s r Hc _ _ IH]; [reflexivity|]. rewrite (words_app a c s Hc), <- IH. destruct drop; cbn [app].
  - now rewrite words_app by reflexivity.
  - rewrite words_app by exact Hc. reflexivity.
Qed.
Lemma wraps_drop len s r : wraps len true s r -> Forall2 (fun a b => a = b \/ (white a = true /\ b = nl)) s r.
Proof.
  induction 1 as [s _|a c s r Hc _ _ IH].
  - induction s; constructor; auto.
  - induction a as [|x a IHa]; cbn [app]; constructor; auto.
Qed.
Lemma lines_bounded a l : In l (lines_of a) -> length l <= length a.
Proof. intro H. apply cut_In in H as (x & y & ->). rewrite !app_length. lia. Qed.
Lemma lines_unblank a l : (forall i c, 1 <= i -> nth_error a i = Some c -> is_sp_tab c = false) -> In l (lines_of a) ->
  forall i c, 1 <= i -> nth_error l i = Some c -> is_sp_tab c = false.
Proof.
  intros H I i c Hi Hc. apply cut_In in I as (x & y & ->). apply (H (length x + i) c); [lia|].
  rewrite nth_error_app2 by lia. replace (length x + i - length x) with i by lia.
  rewrite nth_error_app1; [exact Hc|]. apply nth_error_Some. congruence.
Qed.
Lemma wraps_width len s r l : wraps len true s r -> In l (lines_of r) ->
  length l <= len \/ length l < 2 * len \/ forall i c, 1 <= i -> nth_error l i = Some c -> is_sp_tab c = false.
Proof.
  induction 1 as [s Hs|a c s r Hc Ha _ IH].
  - intro I. destruct Hs as [Hs|Hs]; [left; apply lines_bounded in I; lia|]. right; right. eapply lines_unblank; eauto.
  - cbn [app]. rewrite lines_app, in_app_iff. intros [I|I]; [|now apply IH].
    destruct Ha as [Ha|[Ha|Ha]]; [left|right; left|right; right].
    + apply lines_bounded in I. lia.
    + apply lines_bounded in I. lia.
    + eapply lines_unblank; eauto.
Qed.
Lemma multiline_spec s len drop : exists r, genStrMakeMultiline s len drop = Ok r /\ wraps len drop s r.
Proof.
  unfold genStrMakeMultiline. destruct (length s <=? len) eqn:E.
  - exists s. split; [reflexivity|]. constructor. left. lia.
  - apply multiline_wraps. lia.
Qed.
