From Verif.Model Require Import Base Common Xml Units Field FieldCommon IntField.
From Verif.Spec Require Import Texts Ints Versions IntSpec.
From Verif.Proofs Require Import BaseFacts CommonFacts IntFacts.
From Coq Require Import ZifyBool ZifyNat Permutation Sorting.Sorted.

(** ** Insertion sort *)
Section SortFacts.
  Context {A : Type} (lt : A -> A -> bool) (P : A -> Prop).
  Lemma insert_perm x l : Permutation (insert lt x l) (x :: l).
  Proof.
    induction l as [|y l IH]; simpl; [reflexivity|].
    destruct (lt y x); [|reflexivity].
    rewrite IH. apply perm_swap.
  Qed.
  Lemma sort_perm l : Permutation (isort lt l) l.
  Proof.
    induction l as [|x l IH]; simpl; [reflexivity|]. rewrite insert_perm. constructor. exact IH.
  Qed.
  Lemma sort_In l x : In x (isort lt l) <-> In x l.
  Proof. split; apply Permutation_in; [apply sort_perm|symmetry; apply sort_perm]. Qed.
  Lemma sort_Forall Q l : Forall Q (isort lt l) <-> Forall Q l.
  Proof. rewrite !Forall_forall. split; intros H x Hx; apply H; apply sort_In; exact Hx. Qed.

  Hypothesis asym : forall a b, P a -> P b -> lt a b = true -> lt b a = false.
  Hypothesis ntrans : forall a b c, P a -> P b -> P c -> lt b a = false -> lt c b = false -> lt c a = false.
  Lemma insert_sorted x l : P x -> Forall P l ->
    StronglySorted (fun a b => lt b a = false) l -> StronglySorted (fun a b => lt b a = false) (insert lt x l).
  Proof.
    intros Px. induction l as [|y l IH]; intros Pl S; simpl; [repeat constructor|].
    inversion Pl as [|? ? Py Pl']; subst. inversion S as [|? ? S' F]; subst.
    destruct (lt y x) eqn:E.
    - constructor; [auto|]. apply Forall_forall. intros z Hz.
      apply (Permutation_in _ (insert_perm x l)) in Hz. destruct Hz as [<-|Hz]; [auto|].
      rewrite Forall_forall in F; auto.
    - constructor; [exact S|]. constructor; [exact E|].
      rewrite Forall_forall in *. intros z Hz. apply (ntrans x y z); auto.
  Qed.
  Lemma sort_sorted l : Forall P l -> StronglySorted (fun a b => lt b a = false) (isort lt l).
  Proof.
    induction l as [|x l IH]; simpl; intros Pl; [constructor|].
    inversion Pl; subst. apply insert_sorted; auto. apply sort_Forall; auto.
  Qed.
End SortFacts.

(** ** The two comparators *)
Definition r64 (r : vrange) : Prop := is64 (r_min r) /\ is64 (r_max r).
Lemma as_cmp_inj big a b : is64 a -> is64 b -> as_cmp big a = as_cmp big b -> a = b.
Proof.
  intros Ha Hb. destruct big; cbn [as_cmp]; [|auto]. intros H.
  rewrite <- (to_s64_id a), <- (to_s64_id b), <- (to_s64_u64 a), <- (to_s64_u64 b), H by assumption. reflexivity.
Qed.
Definition vlt big (a b : vrange) : Prop :=
  r_since a < r_since b \/ r_since a = r_since b /\
  (r_depr a < r_depr b \/ r_depr a = r_depr b /\
   (as_cmp big (r_min a) < as_cmp big (r_min b) \/ as_cmp big (r_min a) = as_cmp big (r_min b) /\
    as_cmp big (r_max a) < as_cmp big (r_max b))).
Definition wlt big (a b : vrange) : Prop :=
  as_cmp big (r_min a) < as_cmp big (r_min b) \/ as_cmp big (r_min a) = as_cmp big (r_min b) /\
  (as_cmp big (r_max a) < as_cmp big (r_max b) \/ as_cmp big (r_max a) = as_cmp big (r_max b) /\
   (r_since a < r_since b \/ r_since a = r_since b /\ r_depr a < r_depr b)).
Lemma lt_version_spec big a b : r64 a -> r64 b -> lt_version big a b = true <-> vlt big a b.
Proof.
  intros [A1 A2] [B1 B2]. unfold lt_version, vlt.
  pose proof (as_cmp_inj big _ _ A1 B1) as I.
  destruct (Z.eqb_spec (r_since a) (r_since b)); cbn [negb]; [|lia].
  destruct (Z.eqb_spec (r_depr a) (r_depr b)); cbn [negb]; [|lia].
  destruct (Z.eqb_spec (r_min a) (r_min b)) as [E|E]; cbn [negb]; [rewrite E; lia|].
  assert (as_cmp big (r_min a) <> as_cmp big (r_min b)) by auto. lia.
Qed.
Lemma lt_value_spec big a b : r64 a -> r64 b -> lt_value big a b = true <-> wlt big a b.
Proof.
  intros [A1 A2] [B1 B2]. unfold lt_value, wlt.
  pose proof (as_cmp_inj big _ _ A1 B1) as I. pose proof (as_cmp_inj big _ _ A2 B2) as J.
  destruct (Z.eqb_spec (r_min a) (r_min b)) as [E|E]; cbn [negb].
  - rewrite E. destruct (Z.eqb_spec (r_max a) (r_max b)) as [E'|E']; cbn [negb].
    + rewrite E'. destruct (Z.eqb_spec (r_since a) (r_since b)); cbn [negb]; lia.
    + assert (as_cmp big (r_max a) <> as_cmp big (r_max b)) by auto. lia.
  - assert (as_cmp big (r_min a) <> as_cmp big (r_min b)) by auto. lia.
Qed.
Lemma version_sorted big l : Forall r64 l ->
  StronglySorted (fun a b => ~ vlt big b a) (isort (lt_version big) l).
Proof.
  intros H.
  assert (S : StronglySorted (fun a b => lt_version big b a = false) (isort (lt_version big) l)).
  { apply (sort_sorted _ r64); auto.
    - intros a b Pa Pb E. apply not_true_is_false. intros E'.
      apply lt_version_spec in E; auto. apply lt_version_spec in E'; auto. unfold vlt in *. lia.
    - intros a b c Pa Pb Pc E1 E2. apply not_true_is_false. intros E3.
      apply lt_version_spec in E3; auto.
      assert (~ vlt big b a) by (intros X; apply lt_version_spec in X; auto; congruence).
      assert (~ vlt big c b) by (intros X; apply lt_version_spec in X; auto; congruence).
      clear E1 E2. unfold vlt in *. lia. }
  apply (sort_Forall (lt_version big)) in H. induction S as [|a l' S IH F]; constructor.
  - apply IH. inversion H; auto.
  - inversion H; subst. rewrite Forall_forall in *. intros x Hx E. apply lt_version_spec in E; auto.
    rewrite (F x Hx) in E. discriminate.
Qed.
Lemma value_sorted big l : Forall r64 l ->
  StronglySorted (fun a b => ~ wlt big b a) (isort (lt_value big) l).
Proof.
  intros H.
  assert (S : StronglySorted (fun a b => lt_value big b a = false) (isort (lt_value big) l)).
  { apply (sort_sorted _ r64); auto.
    - intros a b Pa Pb E. apply not_true_is_false. intros E'.
      apply lt_value_spec in E; auto. apply lt_value_spec in E'; auto. unfold wlt in *. lia.
    - intros a b c Pa Pb Pc E1 E2. apply not_true_is_false. intros E3.
      apply lt_value_spec in E3; auto.
      assert (~ wlt big b a) by (intros X; apply lt_value_spec in X; auto; congruence).
      assert (~ wlt big c b) by (intros X; apply lt_value_spec in X; auto; congruence).
      clear E1 E2. unfold wlt in *. lia. }
  apply (sort_Forall (lt_value big)) in H. induction S as [|a l' S IH F]; constructor.
  - apply IH. inversion H; auto.
  - inversion H; subst. rewrite Forall_forall in *. intros x Hx E. apply lt_value_spec in E; auto.
    rewrite (F x Hx) in E. discriminate.
Qed.

(** ** One merge pass *)
Definition covers (r : vrange) (v w : Z) : Prop := r_min r <= v <= r_max r /\ r_since r <= w < r_depr r.
Definition covered (l : list vrange) (v w : Z) : Prop := exists r, In r l /\ covers r v w.
(** two ranges of the same versions never touch *)
Definition apart (a b : vrange) : Prop :=
  r_since a = r_since b -> r_depr a = r_depr b -> r_max a + 1 < r_min b.
Definition vle (a b : vrange) : Prop := ~ vlt false b a.

Lemma covered_cons r l v w : covered (r :: l) v w <-> covers r v w \/ covered l v w.
Proof.
  unfold covered. split.
  - intros (x & [<-|Hx] & H); eauto.
  - intros [H|(x & Hx & H)]; [exists r|exists x]; simpl; auto.
Qed.
Lemma merge_covered l : forall cur l', merge_into cur l = Ok l' ->
  StronglySorted vle (cur :: l) -> forall v w, covered l' v w <-> covered (cur :: l) v w.
Proof.
  induction l as [|x l IH]; intros cur l' H S v w; simpl in H.
  - inv_all. tauto.
  - inversion S as [|? ? S' F]; subst.
    inversion S' as [|? ? S'' F']; subst. inversion F as [|? ? Fx Fl]; subst.
    destruct ((r_since cur =? r_since x) && (r_depr cur =? r_depr x)) eqn:E.
    + apply bind_Ok in H as (m & Hm & H). apply s64_Ok in Hm as [-> _].
      destruct (Z.ltb_spec (r_max cur + 1) (r_min x)) as [C|C].
      * apply bind_Ok in H as (rest & Hr & H). inv_all.
        rewrite covered_cons, (IH _ _ Hr S'), (covered_cons cur). tauto.
      * rewrite (IH _ _ H); [rewrite !covered_cons|].
        -- unfold covers; cbn [r_min r_max r_since r_depr]. unfold vle, vlt in Fx. cbn [as_cmp] in Fx.
           assert (r_min cur <= r_min x) by lia.
           split; [intros [X|X]; [|tauto] | intros [X|[X|X]]; [| |tauto]]; lia.
        -- constructor; [exact S''|].
           rewrite Forall_forall in *. intros y Hy. specialize (Fl y Hy). specialize (F' y Hy).
           unfold vle, vlt in *. cbn [as_cmp r_min r_max r_since r_depr] in *. lia.
    + apply bind_Ok in H as (rest & Hr & H). inv_all.
      rewrite covered_cons, (IH _ _ Hr S'), (covered_cons cur). tauto.
Qed.

Definition same_key (a b : vrange) : Prop := r_since a = r_since b /\ r_depr a = r_depr b /\ r_min a = r_min b.
Lemma merge_keys l : forall cur l', merge_into cur l = Ok l' ->
  forall y, In y l' -> exists z, In z (cur :: l) /\ same_key y z.
Proof.
  induction l as [|x l IH]; intros cur l' H y Hy; simpl in H.
  - inv_all. exists y. unfold same_key; auto.
  - destruct ((r_since cur =? r_since x) && (r_depr cur =? r_depr x)) eqn:E.
    + apply bind_Ok in H as (m & Hm & H).
      destruct (m <? r_min x).
      * apply bind_Ok in H as (rest & Hr & H). inv_all. destruct Hy as [<-|Hy].
        -- exists cur. unfold same_key; simpl; auto.
        -- destruct (IH _ _ Hr y Hy) as (z & Hz & K). exists z. split; [right; exact Hz|exact K].
      * destruct (IH _ _ H y Hy) as (z & [Hz|Hz] & K).
        -- subst z. exists cur. split; [left; reflexivity|]. exact K.
        -- exists z. simpl; auto.
    + apply bind_Ok in H as (rest & Hr & H). inv_all. destruct Hy as [<-|Hy].
      * exists cur. unfold same_key; simpl; auto.
      * destruct (IH _ _ Hr y Hy) as (z & Hz & K). exists z. split; [right; exact Hz|exact K].
Qed.
Lemma merge_apart l : forall cur l', merge_into cur l = Ok l' ->
  StronglySorted vle (cur :: l) -> StronglySorted apart l'.
Proof.
  induction l as [|x l IH]; intros cur l' H S; simpl in H.
  - inv_all. repeat constructor.
  - inversion S as [|? ? S' F]; subst.
    inversion S' as [|? ? S'' F']; subst. inversion F as [|? ? Fx Fl]; subst.
    assert (Hkeep : forall rest, merge_into x l = Ok rest ->
      (r_since cur = r_since x -> r_depr cur = r_depr x -> r_max cur + 1 < r_min x) ->
      StronglySorted apart (cur :: rest)).
    { intros rest Hr C. constructor; [apply (IH _ _ Hr S')|].
      apply Forall_forall. intros y Hy. destruct (merge_keys _ _ _ Hr y Hy) as (z & Hz & K1 & K2 & K3).
      intros E1 E2. rewrite K3.
      assert (Hxz : z = x \/ vle x z).
      { destruct Hz as [Hz|Hz]; [auto|right]. rewrite Forall_forall in F'; auto. }
      destruct Hxz as [->|Hxz]; [apply C; congruence|].
      unfold vle, vlt in Fx, Hxz. cbn [as_cmp] in *. lia. }
    destruct ((r_since cur =? r_since x) && (r_depr cur =? r_depr x)) eqn:E.
    + apply bind_Ok in H as (m & Hm & H). apply s64_Ok in Hm as [-> _].
      destruct (Z.ltb_spec (r_max cur + 1) (r_min x)) as [C|C].
      * apply bind_Ok in H as (rest & Hr & H). inv_all. apply Hkeep; auto.
      * apply (IH _ _ H). constructor; [exact S''|].
        rewrite Forall_forall in *. intros y Hy. specialize (Fl y Hy). specialize (F' y Hy).
        unfold vle, vlt in *. cbn [as_cmp r_min r_max r_since r_depr] in *. lia.
    + apply bind_Ok in H as (rest & Hr & H). inv_all. apply Hkeep; auto. lia.
Qed.
Lemma merge_64 l : forall cur l' (Q : Z -> Prop), merge_into cur l = Ok l' ->
  Forall (fun r => Q (r_min r) /\ Q (r_max r)) (cur :: l) -> Forall (fun r => Q (r_min r) /\ Q (r_max r)) l'.
Proof.
  induction l as [|x l IH]; intros cur l' Q H F; simpl in H.
  - inv_all. exact F.
  - inversion F as [|? ? Fc F']; subst. inversion F' as [|? ? Fx Fl]; subst.
    destruct ((r_since cur =? r_since x) && (r_depr cur =? r_depr x)) eqn:E.
    + apply bind_Ok in H as (m & Hm & H). destruct (m <? r_min x).
      * apply bind_Ok in H as (rest & Hr & H). inv_all. constructor; auto. eapply IH; eauto.
      * eapply IH; [exact H|]. constructor; auto. cbn [r_min r_max].
        destruct Fc, Fx. split; auto. destruct (Z.max_spec (r_max cur) (r_max x)) as [[_ ->]|[_ ->]]; auto.
    + apply bind_Ok in H as (rest & Hr & H). inv_all. constructor; auto. eapply IH; eauto.
Qed.

(** ** The whole normalisation *)
Lemma SS_impl {A} (R Q : A -> A -> Prop) (P : A -> Prop) l :
  (forall a b, P a -> P b -> R a b -> Q a b) -> Forall P l -> StronglySorted R l -> StronglySorted Q l.
Proof.
  intros HI Hl S. induction S as [|a l' S IH F]; constructor.
  - apply IH. inversion Hl; auto.
  - inversion Hl; subst. rewrite Forall_forall in *. intros x Hx. auto.
Qed.
(** stored numbers whose signed and compared values agree *)
Definition plain (big : bool) (r : vrange) : Prop :=
  big = false \/ (0 <= r_min r /\ 0 <= r_max r).
Lemma plain_id big r : r64 r -> plain big r -> as_cmp big (r_min r) = r_min r /\ as_cmp big (r_max r) = r_max r.
Proof.
  intros [[? ?] [? ?]] [->|[? ?]]; [auto|]. destruct big; [|auto]. cbn [as_cmp].
  rewrite !to_u64_id; auto; unfold int_max, two64 in *; lia.
Qed.
Lemma normalise_64 big l l' Q : normalise_ranges big l = Ok l' ->
  Forall (fun r => Q (r_min r) /\ Q (r_max r)) l -> Forall (fun r => Q (r_min r) /\ Q (r_max r)) l'.
Proof.
  unfold normalise_ranges. intros H F. apply bind_Ok in H as (m & Hm & H). inv_all.
  apply sort_Forall. apply (sort_Forall (lt_version big)) in F.
  destruct (isort (lt_version big) l) as [|x s]; simpl in Hm; inv_all; [constructor|].
  eapply merge_64; eauto.
Qed.
Lemma normalise_sorted big l l' : normalise_ranges big l = Ok l' -> Forall r64 l ->
  StronglySorted (fun a b => ~ wlt big b a) l'.
Proof.
  unfold normalise_ranges. intros H F. apply bind_Ok in H as (m & Hm & H). inv_all.
  apply value_sorted.
  apply (sort_Forall (lt_version big)) in F.
  destruct (isort (lt_version big) l) as [|x s]; simpl in Hm; inv_all; [constructor|].
  eapply (merge_64 _ _ _ is64); eauto.
Qed.
Lemma normalise_vle big l : Forall r64 l -> Forall (plain big) l -> StronglySorted vle (isort (lt_version big) l).
Proof.
  intros F Fp. pose proof (version_sorted big l F) as S.
  eapply (SS_impl _ _ (fun r => r64 r /\ plain big r)); [|apply sort_Forall|exact S].
  - intros a b [A1 A2] [B1 B2] N X. apply N. clear N. unfold vlt in *. cbn [as_cmp] in X.
    destruct (plain_id _ _ A1 A2) as [-> ->], (plain_id _ _ B1 B2) as [-> ->]. exact X.
  - rewrite Forall_forall in *. intros; split; auto.
Qed.
Lemma normalise_covered big l l' : normalise_ranges big l = Ok l' -> Forall r64 l -> Forall (plain big) l ->
  forall v w, covered l' v w <-> covered l v w.
Proof.
  intros H F Fp v w. pose proof (normalise_vle big l F Fp) as S.
  unfold normalise_ranges in H. apply bind_Ok in H as (m & Hm & H). inv_all.
  assert (E : forall lt k, covered (isort lt k) v w <-> covered k v w).
  { intros lt k. unfold covered. split; intros (r & Hr & C); exists r; split; auto; apply (sort_In lt); auto. }
  rewrite E, <- (E (lt_version big) l).
  destruct (isort (lt_version big) l) as [|x s]; simpl in Hm; inv_all; [tauto|].
  eapply merge_covered; eauto.
Qed.
(** no two different positions hold touching ranges of the same versions *)
Definition separate (a b : vrange) : Prop :=
  r_since a = r_since b -> r_depr a = r_depr b -> r_max a + 1 < r_min b \/ r_max b + 1 < r_min a.
Lemma SS_apart_pairs l : StronglySorted apart l -> ForallOrdPairs separate l.
Proof.
  intros S. induction S as [|a l S IH F]; constructor; auto.
  eapply Forall_impl; [|exact F]. intros b H E1 E2. left. auto.
Qed.
Lemma FOP_perm {A} (R : A -> A -> Prop) (sym : forall a b, R a b -> R b a) l l' :
  Permutation l l' -> ForallOrdPairs R l -> ForallOrdPairs R l'.
Proof.
  intros P. induction P as [|x l l' P IH|x y l|l1 l2 l3 P1 IH1 P2 IH2]; intros H; auto.
  - inversion H; subst. constructor; auto. eapply Permutation_Forall; eauto.
  - inversion H as [|? ? H1 H2]; subst. inversion H2 as [|? ? H3 H4]; subst. inversion H1; subst.
    repeat constructor; auto.
Qed.
Lemma normalise_separate big l l' : normalise_ranges big l = Ok l' -> Forall r64 l -> Forall (plain big) l ->
  ForallOrdPairs separate l'.
Proof.
  intros H F Fp. pose proof (normalise_vle big l F Fp) as S.
  unfold normalise_ranges in H. apply bind_Ok in H as (m & Hm & H). inv_all.
  apply FOP_perm with m.
  - unfold separate. intros a b X E1 E2. destruct X; auto.
  - symmetry. apply sort_perm.
  - apply SS_apart_pairs. destruct (isort (lt_version big) l) as [|x s]; simpl in Hm; inv_all; [constructor|].
    eapply merge_apart; eauto.
Qed.
Lemma FOP_nth {A} (R : A -> A -> Prop) (sym : forall a b, R a b -> R b a) l : ForallOrdPairs R l ->
  forall i j a b, nth_error l i = Some a -> nth_error l j = Some b -> i <> j -> R a b.
Proof.
  intros H. induction H as [|x l F H IH]; intros i j a b Hi Hj N.
  - destruct i; discriminate.
  - rewrite Forall_forall in F.
    destruct i as [|i], j as [|j]; simpl in *; [congruence| | |].
    + injection Hi as <-. apply F. eapply nth_error_In; eauto.
    + injection Hj as <-. apply sym, F. eapply nth_error_In; eauto.
    + eapply IH; eauto.
Qed.
