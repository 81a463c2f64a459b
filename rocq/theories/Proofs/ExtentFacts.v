(** C44, C45, C48: lengths, prefixes, suffixes; minimal lengths; semantic types. *)
From Verif.Model Require Import Base Common Xml Units Field FieldCommon IntField EnumField SetField FloatField OptCond Composite.
From Verif.Spec Require Import Texts Ints Versions IntSpec XmlSpec FieldSpec HeaderSpec DslSpec AttrSpec.
From Verif.Proofs Require Import BaseFacts CommonFacts XmlFacts FieldInv FieldFacts OwnFacts SingleFacts TreeFacts AttrFacts.
Local Open Scope list_scope.

(** ** Semantic types *)
Lemma may_mean_spec e f t : sem_allowed e f t = true -> may_mean e f t.
Proof.
  revert f t. fix IH 1. intros f t X. destruct t; [apply mm_none| | |]; destruct f; cbn in X; try discriminate X; try (apply mm_ref; apply IH; exact X).
  - apply mm_version.
  - apply mm_id.
  - apply mm_int_length. apply avail. exact X.
  - apply andb_true_iff in X as [_ X]. apply mm_composite_length; [left; reflexivity|apply avail; exact X].
  - apply andb_true_iff in X as [_ X]. apply mm_composite_length; [right; reflexivity|apply avail; exact X].
Qed.
Lemma verified fl e x n f : field_parse fl e x n = Ok f -> verify_field e f = Ok tt.
Proof. intros H. apply field_parse_inv in H as (fuel & k & p & c0 & old & repl & c & _ & _ & _ & _ & _ & _ & _ & H). exact H. Qed.
Lemma semantic_allowed fl e x n f : field_parse fl e x n = Ok f -> may_mean e f (c_sem (f_common f)).
Proof.
  intros H. apply verified in H. unfold verify_field in H. apply bind_Ok in H as (u & G & _). apply guard_Ok in G. apply may_mean_spec. exact G.
Qed.
Lemma min_length_checked fl e x n f : field_parse fl e x n = Ok f -> 0 <= c_validateMinLength (f_common f) < 2 ^ 31 ->
  min_length f = c_validateMinLength (f_common f).
Proof.
  intros H B. apply verified in H. unfold verify_field in H. apply bind_Ok in H as (u & _ & H). apply bind_Ok in H as (u1 & _ & H). apply guard_Ok in H.
  apply orb_true_iff in H as [H|H]; [lia|]. unfold to_u32 in H. rewrite Z.mod_small in H; [lia|]. change (2 ^ 31) with 2147483648 in B. unfold two32. lia.
Qed.

(** ** Extents *)
Lemma two_ways (P Q : Prop) : (P -> Q -> False) -> at_most_one [P; Q].
Proof.
  intros H i j A B Hi Hj a b. destruct i as [|[|[|i]]], j as [|[|[|j]]]; cbn in Hi, Hj; try discriminate; try reflexivity;
    injection Hi as <-; injection Hj as <-; exfalso; auto.
Qed.
Lemma three_ways (P Q R : Prop) : (P -> Q -> False) -> (P -> R -> False) -> (Q -> R -> False) -> at_most_one [P; Q; R].
Proof.
  intros H1 H2 H3 i j A B Hi Hj a b. destruct i as [|[|[|[|i]]]], j as [|[|[|[|j]]]]; cbn in Hi, Hj; try discriminate; try reflexivity;
    injection Hi as <-; injection Hj as <-; exfalso; auto.
Qed.
Lemma four_ways (P Q R S : Prop) : (P -> Q -> False) -> (P -> R -> False) -> (P -> S -> False) -> (Q -> R -> False) -> (Q -> S -> False) -> (R -> S -> False) ->
  at_most_one [P; Q; R; S].
Proof.
  intros H1 H2 H3 H4 H5 H6 i j A B Hi Hj a b. destruct i as [|[|[|[|[|i]]]]], j as [|[|[|[|[|j]]]]]; cbn in Hi, Hj; try discriminate; try reflexivity;
    injection Hi as <-; injection Hj as <-; exfalso; auto.
Qed.
Lemma ways_excl Ps i j (P Q : Prop) : at_most_one Ps -> nth_error Ps i = Some P -> nth_error Ps j = Some Q -> i <> j -> P -> Q -> False.
Proof. intros H A B N p q. apply N. eapply H; eassumption. Qed.
Definition lone (d : prefix) : Prop := fst d <> [] -> snd d = None.
Lemma update_prefix_lone rec e x xs p n k cur d : lone cur -> update_prefix rec e x xs p n k cur = Ok d -> lone d.
Proof.
  intros L H. unfold update_prefix in H. apply bind_Ok in H as (d1 & H1 & H).
  assert (L1 : lone d1).
  { unfold prefix_from_ref in H1. apply bind_Ok in H1 as (u & _ & H1). destruct (find_prop p k) as [[|ch r]|]; [discriminate| |injection H1 as <-; exact L].
    destruct (ch_eqb ch c_sibling).
    - apply bind_Ok in H1 as (u1 & _ & H1). apply bind_Ok in H1 as (u2 & _ & H1). injection H1 as <-. intros _. reflexivity.
    - apply bind_Ok in H1 as (f & _ & H1). apply bind_Ok in H1 as (u2 & _ & H1). injection H1 as <-. intros X. contradiction X. reflexivity. }
  unfold prefix_as_child in H. destruct (parseGetChildrenNamed n k) as [|ch [|? ?]]; [injection H as <-; exact L1| |discriminate].
  destruct (parseGetChildren ch) as [|m [|? ?]]; destruct (find_prop p k); try discriminate; [injection H as <-; exact L1|].
  apply bind_Ok in H as (f & _ & H). apply bind_Ok in H as (u2 & _ & H). injection H as <-. intros X. contradiction X. reflexivity.
Qed.
Lemma has_field_spec d q : has_field (d, q) = true <-> q <> None.
Proof. unfold has_field. cbn. destruct q; split; intros H; try reflexivity; try discriminate; contradiction H; reflexivity. Qed.
Lemma has_prefix_spec d q : has_prefix (d, q) = true <-> has_side d q.
Proof.
  unfold has_prefix, has_side. cbn [fst]. rewrite orb_true_iff, has_field_spec. destruct d as [|a d]; cbn.
  - split; intros [H|H]; auto; congruence.
  - split; intros [H|H]; auto. left. discriminate.
Qed.
Lemma clone_sub_None q : clone_sub q = None <-> q = None.
Proof. destruct q as [[[] g]|]; cbn; split; intros H; try discriminate; reflexivity. Qed.
Lemma clone_sub_side d q : has_side d (clone_sub q) <-> has_side d q.
Proof. unfold has_side. rewrite clone_sub_None. tauto. Qed.
Lemma lone_clone d q : (d <> [] -> q = None) -> lone (d, clone_sub q).
Proof. intros H X. cbn in *. rewrite H; auto. Qed.
Lemma string_extent rec e x xs p n c old f : (forall s q, old = Some (s, q) -> one_extent (FString c s q)) -> string_parse rec e x xs p n c old = Ok f -> one_extent f.
Proof.
  intros Ho H. unfold string_parse in H.
  assert (E0 : exists s0 pre0, match old with Some o => o | None => (mkString [] [] 0 [] [] false, None) end = (s0, pre0) /\ one_extent (FString c s0 pre0)).
  { destruct old as [[s0 pre0]|]; [exists s0, pre0; auto|]. do 2 eexists. split; [reflexivity|]. split; [|intros X; contradiction X; reflexivity].
    apply three_ways; cbn; intros A B; try discriminate; apply A; reflexivity. }
  destruct E0 as (s0 & pre0 & E & One & Lo). rewrite E in H. clear E.
  apply bind_Ok in H as (enc & H1 & H). apply bind_Ok in H as (len & H2 & H). apply bind_Ok in H as (pr & H3 & H). apply bind_Ok in H as (u' & H4 & H).
  apply bind_Ok in H as (zero & H5 & H). apply bind_Ok in H as ([d vs] & H6 & H). injection H as <-.
  apply update_prefix_lone in H3; [|intros X; apply Lo; exact X]. destruct pr as [det pre].
  assert (X01 := ways_excl _ 0 1 _ _ One eq_refl eq_refl ltac:(discriminate)). assert (X02 := ways_excl _ 0 2 _ _ One eq_refl eq_refl ltac:(discriminate)).
  assert (X12 := ways_excl _ 1 2 _ _ One eq_refl eq_refl ltac:(discriminate)). apply guard_Ok in H4.
  assert (Hl : len <> 0 -> st_zeroSuffix s0 = false).
  { intros N. unfold update_fixed_length in H2. apply bind_Ok in H2 as (u1 & _ & H2).
    assert (Old : len = st_length s0 -> st_zeroSuffix s0 = false) by (intros ->; destruct (st_zeroSuffix s0); [exfalso; auto|reflexivity]).
    destruct (find_prop p (L "length")) as [v|]; [|injection H2 as <-; auto]. apply bind_Ok in H2 as (l & _ & H2). apply bind_Ok in H2 as (u2 & _ & H2).
    destruct (st_length s0 =? l); [injection H2 as <-; auto|]. apply bind_Ok in H2 as (u3 & G & H2). injection H2 as <-. apply guard_Ok in G.
    apply andb_true_iff in G as [_ G]. destruct (st_zeroSuffix s0); [discriminate|reflexivity]. }
  assert (Hp : pre <> None -> len = 0 /\ st_zeroSuffix s0 = false).
  { intros N. apply has_field_spec with (d := det) in N. rewrite N in H4. cbn in H4. apply andb_true_iff in H4 as [A B]. apply negb_true_iff in B. split; [lia|exact B]. }
  assert (Hz : zero = true -> len = 0 /\ pre = None).
  { intros ->. assert (Old : st_zeroSuffix s0 = true -> len = 0 /\ pre = None).
    { intros Z. split; [destruct (Z.eq_dec len 0); [assumption|]; rewrite Hl in Z by assumption; discriminate|].
      destruct pre; [|reflexivity]. destruct Hp as [_ Y]; [discriminate|]. congruence. }
    unfold update_zero_term in H5. apply bind_Ok in H5 as (u1 & _ & H5). destruct (find_prop p (L "zeroTermSuffix")); [|injection H5 as Z; auto].
    apply bind_Ok in H5 as (b & _ & H5). destruct (negb (Bool.eqb b (st_zeroSuffix s0)) && b) eqn:N.
    - apply bind_Ok in H5 as (u2 & G & H5). apply guard_Ok in G. apply andb_true_iff in G as [G1 G2]. apply negb_true_iff in G2. split; [lia|].
      destruct pre; [discriminate|reflexivity].
    - injection H5 as ->. apply Old. destruct (st_zeroSuffix s0); [reflexivity|discriminate]. }
  split; [|exact H3]. apply three_ways; cbn [st_length st_zeroSuffix snd].
  - intros A B. destruct (Hp B). contradiction.
  - intros A B. destruct (Hz B). contradiction.
  - intros A B. destruct (Hz B). contradiction.
Qed.
Lemma data_extent rec e x xs p n c old f : (forall s q, old = Some (s, q) -> one_extent (FData c s q)) -> data_parse rec e x xs p n c old = Ok f -> one_extent f.
Proof.
  intros Ho H. unfold data_parse in H.
  assert (E0 : exists s0 pre0, match old with Some o => o | None => (mkData [] 0 [] [], None) end = (s0, pre0) /\ one_extent (FData c s0 pre0)).
  { destruct old as [[s0 pre0]|]; [exists s0, pre0; auto|]. do 2 eexists. split; [reflexivity|]. split; [|intros X; contradiction X; reflexivity].
    apply two_ways; cbn; intros A B; apply A; reflexivity. }
  destruct E0 as (s0 & pre0 & E & One & Lo). rewrite E in H. clear E.
  apply bind_Ok in H as (len & H2 & H). apply bind_Ok in H as (pr & H3 & H). apply bind_Ok in H as (u' & H4 & H). apply bind_Ok in H as ([d vs] & H6 & H). injection H as <-.
  apply update_prefix_lone in H3; [|intros X; apply Lo; exact X]. destruct pr as [det pre]. apply guard_Ok in H4.
  split; [|exact H3]. apply two_ways; cbn [d_length snd]. intros A B. apply has_field_spec with (d := det) in B. rewrite B in H4. cbn in H4. lia.
Qed.
Lemma list_extent rec e x xs p n c old f :
  (forall s el a b d t, old = Some (s, el, a, b, d, t) -> one_extent (FList c s el a b d t)) -> list_parse rec e x xs p n c old = Ok f -> one_extent f.
Proof.
  intros Ho H. unfold list_parse in H.
  assert (E0 : exists s0 elem0 cnt0 len0 elen0 term0,
     match old with Some (s, el, a, b, d, t) => (s, Some el, a, b, d, t) | None => (mkList 0 [] [] [] [] false, None, None, None, None, None) end = (s0, elem0, cnt0, len0, elen0, term0) /\
     one_extent (FList c s0 (true, FVariant c None []) cnt0 len0 elen0 term0)).
  { destruct old as [[[[[[s0 el] a] b] d] t]|]; [do 6 eexists; split; [reflexivity|]; exact (Ho _ _ _ _ _ _ eq_refl)|]. do 6 eexists. split; [reflexivity|]. split.
    - apply four_ways; cbn; intros [A|A] [B|B] || intros A [B|B] || intros A B; apply A || apply B; reflexivity.
    - repeat split; auto. }
  destruct E0 as (s0 & elem0 & cnt0 & len0 & elen0 & term0 & E & One & L1 & L2 & L3 & L4). rewrite E in H. clear E Ho.
  apply bind_Ok in H as (el1 & H1 & H). apply bind_Ok in H as (el2 & H2 & H). apply bind_Ok in H as (elem & H3 & H). cbv zeta in H.
  apply bind_Ok in H as (count & H4 & H). apply bind_Ok in H as (cnt & H5 & H). apply bind_Ok in H as (u1 & H6 & H). apply bind_Ok in H as (len & H7 & H).
  apply bind_Ok in H as (u2 & H8 & H). apply bind_Ok in H as (fixed & H9 & H). apply bind_Ok in H as (elen & H10 & H). apply bind_Ok in H as (u3 & H11 & H).
  apply bind_Ok in H as (term1 & H12 & H). set (term := if has_prefix term1 && _ then _ else _) in H. apply bind_Ok in H as (u4 & H13 & H). injection H as <-.
  apply update_prefix_lone in H5; [|exact L1]. apply update_prefix_lone in H7; [|exact L2]. apply update_prefix_lone in H10; [|exact L3]. apply update_prefix_lone in H12; [|exact L4].
  assert (L5 : lone term) by (unfold term; destruct (has_prefix term1 && negb (prop_supported e (L "termSuffix"))); [intros X; contradiction X; reflexivity|exact H12]).
  clearbody term. apply guard_Ok in H6, H8, H13. destruct cnt as [dc fc], len as [dl fl], elen as [de fe], term as [dt ft]. cbn [fst snd] in *.
  assert (S6 : has_side dc fc -> count = 0) by (intros X; apply has_prefix_spec in X; rewrite X in H6; cbn in H6; apply andb_true_iff in H6 as [H6 _]; apply andb_true_iff in H6 as [H6 _]; lia).
  assert (S8 : has_side dl fl -> count = 0 /\ ~ has_side dc fc).
  { intros X. apply has_prefix_spec in X. rewrite X in H8. cbn in H8. apply andb_true_iff in H8 as [H8 _]. apply andb_true_iff in H8 as [H8 H8']. split; [lia|].
    intros Y. apply has_prefix_spec in Y. rewrite Y in H8'. discriminate. }
  assert (S13 : has_side dt ft -> count = 0 /\ ~ has_side dc fc /\ ~ has_side dl fl).
  { intros X. apply has_prefix_spec in X. rewrite X in H13. cbn in H13. apply andb_true_iff in H13 as [H13 Hl]. apply andb_true_iff in H13 as [H13 Hc]. split; [lia|].
    split; intros Y; apply has_prefix_spec in Y; [rewrite Y in Hc|rewrite Y in Hl]; discriminate. }
  split; [|auto]. apply four_ways; cbn [l_count l_detCount l_detLength l_detTerm]; intros A B.
  - apply A. auto.
  - apply A. apply S8. exact B.
  - apply A. apply S13. exact B.
  - apply S8 in B as [_ B]. contradiction.
  - apply S13 in B as (_ & B & _). contradiction.
  - apply S13 in B as (_ & _ & B). contradiction.
Qed.

Lemma extent_clone f : one_extent f -> one_extent (clone f).
Proof.
  destruct f as [| | | | | |c s q|c s q|c s el a b d t| | |]; try (exact (fun x => x)); cbn [clone]; fold (clone_sub q) || idtac.
  - intros [O L]. split; [|apply lone_clone; exact L]. apply three_ways; rewrite ?clone_sub_None.
    + exact (ways_excl _ 0 1 _ _ O eq_refl eq_refl ltac:(discriminate)).
    + exact (ways_excl _ 0 2 _ _ O eq_refl eq_refl ltac:(discriminate)).
    + exact (ways_excl _ 1 2 _ _ O eq_refl eq_refl ltac:(discriminate)).
  - intros [O L]. split; [|apply lone_clone; exact L]. apply two_ways. rewrite clone_sub_None. exact (ways_excl _ 0 1 _ _ O eq_refl eq_refl ltac:(discriminate)).
  - intros (O & L1 & L2 & L3 & L4). fold (clone_sub a) (clone_sub b) (clone_sub d) (clone_sub t). split; [|repeat split; apply lone_clone; assumption].
    apply four_ways; rewrite ?clone_sub_side.
    + exact (ways_excl _ 0 1 _ _ O eq_refl eq_refl ltac:(discriminate)).
    + exact (ways_excl _ 0 2 _ _ O eq_refl eq_refl ltac:(discriminate)).
    + exact (ways_excl _ 0 3 _ _ O eq_refl eq_refl ltac:(discriminate)).
    + exact (ways_excl _ 1 2 _ _ O eq_refl eq_refl ltac:(discriminate)).
    + exact (ways_excl _ 1 3 _ _ O eq_refl eq_refl ltac:(discriminate)).
    + exact (ways_excl _ 2 3 _ _ O eq_refl eq_refl ltac:(discriminate)).
Qed.
Lemma accepted_extent f : accepted f -> all one_extent f.
Proof.
  apply accepted_all.
  { intros g H. apply extent_clone. exact (all_here _ _ H). }
  { intros v g H. apply all_here in H. destruct g; exact H. }
  intros fuel e x n k p c0 old repl c g He Hf Hrec Hk Hp Hr Hold Hrep Hrp Hc Hkp Hv Hparts.
  assert (Ho : forall g, old = Some g -> one_extent g) by (intros o E; exact (all_here _ _ (Hold o E))). clear Hf Hold Hrec.
  pose proof Hkp as F. apply kind_parse_common in F as (F & _). destruct k; try (destruct g; try exact I; discriminate F).
  - unfold kind_parse in Hkp. apply bind_Ok in Hkp as (u & _ & H). eapply string_extent; [|exact H].
    intros s q E. destruct old as [o|]; [|discriminate]. specialize (Ho _ eq_refl). destruct o; try discriminate E. injection E as <- <-. exact (extent_clone (FString c _ _) Ho).
  - unfold kind_parse in Hkp. apply bind_Ok in Hkp as (u & _ & H). eapply data_extent; [|exact H].
    intros s q E. destruct old as [o|]; [|discriminate]. specialize (Ho _ eq_refl). destruct o; try discriminate E. injection E as <- <-. exact (extent_clone (FData c _ _) Ho).
  - unfold kind_parse in Hkp. apply bind_Ok in Hkp as (u & _ & H). eapply list_extent; [|exact H].
    intros s el a b d t E. destruct old as [o|]; [|discriminate]. specialize (Ho _ eq_refl). destruct o as [| | | | | | | |c2 s2 [o2 g2] a2 b2 d2 t2| | |]; try discriminate E. injection E as <- <- <- <- <- <-.
    exact (extent_clone (FList c s2 (o2, g2) a2 b2 d2 t2) Ho).
Qed.
