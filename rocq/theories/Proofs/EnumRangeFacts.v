(** The valid values of generated enum fields. *)
From Coq Require Import Lia Sorted Permutation ZifyBool ZifyNat.
From Verif.Model Require Import Base Common Xml Units Field FieldCommon IntField EnumField GenUtil GenComms CommsInt CommsEnum.
From Verif.Spec Require Import Texts Ints Versions IntSpec EnumSpec GenSpec NameSpec CppSpec CondCode BodySpec EnumCode.
From Verif.Proofs Require Import BaseFacts CommonFacts IntFacts RangeFacts IntInv EnumInv GenFacts CommsIntFacts CommsOptFacts EnumTextFacts EnumGenFacts.
Local Open Scope string_scope. Local Open Scope Z_scope. Local Open Scope list_scope.

(** ** Merging *)
Notation covers := CommsIntFacts.covers.
Notation gap := CommsEnum.gap.
Lemma take_up_covers big a b v : uns big (r_min a) <= uns big (r_min b) -> gap big a b = false ->
  uns big (r_min a) <= uns big (r_max a) -> uns big (r_min b) <= uns big (r_max b) -> r64 a -> r64 b ->
  covers big (take_up big a b) v <-> covers big a v \/ covers big b v.
Proof.
  intros Hab Hg Ha Hb [A1 A2] [B1 B2]. unfold covers, take_up, gap in *. cbn [r_min r_max].
  assert (Top : uns big (r_min b) <= uns big (if big then -1 else int_max)).
  { destruct big; cbn [uns]; [|unfold is64, int_max in *; lia]. change (to_u64 (-1)) with (2 ^ 64 - 1). pose proof (to_u64_range (r_min b)). unfold two64 in *. lia. }
  destruct (uns big (r_max a) <? uns big (r_max b)) eqn:E; cbn [r_max]; destruct (uns big (r_max a) <? uns big (if big then -1 else int_max)) eqn:E2; cbn [andb] in Hg; lia.
Qed.
Definition follows (big check : bool) (a b : vrange) : Prop :=
  check = false \/ (r_since a = r_since b /\ r_depr a = r_depr b) -> uns big (r_min a) <= uns big (r_min b).
Definition proper (big : bool) (r : vrange) : Prop := r64 r /\ uns big (r_min r) <= uns big (r_max r).
Lemma take_up_proper big a b : proper big a -> proper big b -> proper big (take_up big a b).
Proof.
  intros [[A1 A2] A3] [[B1 B2] B3]. unfold proper, r64, take_up. cbn [r_min r_max]. destruct (uns big (r_max a) <? uns big (r_max b)) eqn:E; (split; [split; assumption|lia]).
Qed.
Lemma merge_covers big check (P : Z -> Z -> Prop) v : (check = false -> forall x y, P x y) -> forall l a,
  StronglySorted (follows big check) (a :: l) -> Forall (proper big) (a :: l) ->
  (exists r, In r (merge_from big check a l) /\ P (r_since r) (r_depr r) /\ covers big r v) <->
  (exists r, In r (a :: l) /\ P (r_since r) (r_depr r) /\ covers big r v).
Proof.
  intros HP. induction l as [|b l IH]; intros a S F; [reflexivity|]. cbn [merge_from].
  inversion S as [|? ? S1 S2]; subst. inversion S2 as [|? ? Sab S2']; subst. inversion S1 as [|? ? S3 S4]; subst.
  inversion F as [|? ? Pa F1]; subst. inversion F1 as [|? ? Pb F2]; subst.
  destruct ((check && negb ((r_since a =? r_since b) && (r_depr a =? r_depr b))) || gap big a b) eqn:E.
  - specialize (IH b S1 F1). cbn [In]. split.
    + intros (r & [<-|I] & Hr); [eauto|]. destruct (proj1 IH (ex_intro _ r (conj I Hr))) as (r' & I' & Hr'). exists r'. split; [right; exact I'|exact Hr'].
    + intros (r & [<-|I] & Hr); [eauto|]. destruct (proj2 IH (ex_intro _ r (conj I Hr))) as (r' & I' & Hr'). exists r'. split; [right; exact I'|exact Hr'].
  - apply orb_false_iff in E as [E1 E2].
    assert (V : check = false \/ (r_since a = r_since b /\ r_depr a = r_depr b)) by (destruct check; [right; lia|now left]).
    pose proof (Sab V) as Le.
    assert (St : StronglySorted (follows big check) (take_up big a b :: l)).
    { constructor; [exact S3|]. eapply Forall_impl; [|exact S2']. intros c H. exact H. }
    rewrite (IH (take_up big a b) St (Forall_cons _ (take_up_proper big a b Pa Pb) F2)). cbn [In].
    destruct Pa as [Ra Pa], Pb as [Rb Pb]. pose proof (take_up_covers big a b v Le E2 Pa Pb Ra Rb) as TC.
    assert (Pv : P (r_since a) (r_depr a) <-> P (r_since b) (r_depr b)) by (destruct V as [V|[-> ->]]; [split; auto|tauto]).
    split.
    + intros (r & [<-|I] & Hp & Hc); [|exists r; tauto]. cbn [take_up r_since r_depr] in Hp. apply TC in Hc as [Hc|Hc]; [exists a|exists b]; tauto.
    + intros (r & [<-|[<-|I]] & Hp & Hc).
      * exists (take_up big a b). split; [now left|]. split; [exact Hp|]. apply TC. now left.
      * exists (take_up big a b). split; [now left|]. split; [apply Pv; exact Hp|]. apply TC. now right.
      * exists r. tauto.
Qed.
(** the ends of merged ranges are ends of the given ones *)
Lemma merge_ends big check : forall l a r, In r (merge_from big check a l) ->
  exists x y, In x (a :: l) /\ In y (a :: l) /\ r_min r = r_min x /\ r_max r = r_max y /\ r_since r = r_since x /\ r_depr r = r_depr x.
Proof.
  induction l as [|b l IH]; intros a r I; cbn [merge_from] in I.
  - destruct I as [<-|[]]. exists a, a. cbn. tauto.
  - destruct ((check && _) || _).
    + destruct I as [<-|I]; [exists a, a; cbn; tauto|]. destruct (IH b r I) as (x & y & X & Y & K). exists x, y. split; [now right|]. split; [now right|exact K].
    + destruct (IH _ r I) as (x & y & X & Y & E1 & E2 & E3 & E4).
      assert (H1 : exists x', In x' (a :: b :: l) /\ r_min x = r_min x' /\ r_since x = r_since x' /\ r_depr x = r_depr x').
      { destruct X as [<-|X]; [exists a; cbn; tauto|exists x; cbn; tauto]. }
      assert (H2 : exists y', In y' (a :: b :: l) /\ r_max y = r_max y').
      { destruct Y as [<-|Y]; [|exists y; cbn; tauto]. cbn [take_up r_max]. destruct (uns big (r_max a) <? uns big (r_max b)); [exists b|exists a]; cbn; tauto. }
      destruct H1 as (x' & X1 & X2 & X3 & X4), H2 as (y' & Y1 & Y2). exists x', y'. repeat split; try assumption; congruence.
Qed.
Lemma merge_proper big check : forall l a, Forall (proper big) (a :: l) -> Forall (proper big) (merge_from big check a l).
Proof.
  induction l as [|b l IH]; intros a F; cbn [merge_from]; [exact F|]. inversion F as [|? ? Pa F1]; subst. inversion F1 as [|? ? Pb F2]; subst.
  destruct ((check && _) || _); [constructor; [exact Pa|apply IH; exact F1]|]. apply IH. constructor; [now apply take_up_proper|exact F2].
Qed.
(** order of the versions *)
Definition vers_le (a b : vrange) : Prop := r_since a < r_since b \/ (r_since a = r_since b /\ r_depr a <= r_depr b).
Lemma merge_vers big check : forall l a, StronglySorted vers_le (a :: l) -> StronglySorted vers_le (merge_from big check a l).
Proof.
  induction l as [|b l IH]; intros a S; cbn [merge_from]; [exact S|]. inversion S as [|? ? S1 S2]; subst. inversion S2 as [|? ? Sab S2']; subst. inversion S1 as [|? ? S3 S4]; subst.
  destruct ((check && _) || _).
  - constructor; [apply IH; exact S1|]. apply Forall_forall. intros r I. apply merge_ends in I as (x & _ & X & _ & _ & _ & E1 & E2). rewrite Forall_forall in S2.
    specialize (S2 x X). unfold vers_le in *. rewrite E1, E2. exact S2.
  - apply IH. constructor; [exact S3|]. eapply Forall_impl; [|exact S2']. intros c H. exact H.
Qed.
Lemma ranges_order big check l : StronglySorted (follows big check) (isort (vr_ltb big check) l) /\
  (check = true -> StronglySorted vers_le (isort (vr_ltb big check) l)).
Proof.
  assert (S : StronglySorted (fun a b => vr_ltb big check b a = false) (isort (vr_ltb big check) l)).
  { apply sort_sorted with (P := fun _ => True); [| |apply Forall_forall; auto].
    - intros a b _ _. unfold vr_ltb. destruct check; cbn [andb]; [|lia].
      destruct (r_since a =? r_since b) eqn:E1, (r_since b =? r_since a) eqn:E2; cbn [negb]; try lia.
      destruct (r_depr a =? r_depr b) eqn:E3, (r_depr b =? r_depr a) eqn:E4; cbn [negb]; lia.
    - intros a b c _ _ _. unfold vr_ltb. destruct check; cbn [andb]; [|lia].
      destruct (r_since b =? r_since a) eqn:E1, (r_since c =? r_since b) eqn:E2, (r_since c =? r_since a) eqn:E5; cbn [negb]; try lia.
      destruct (r_depr b =? r_depr a) eqn:E3, (r_depr c =? r_depr b) eqn:E4, (r_depr c =? r_depr a) eqn:E6; cbn [negb]; lia. }
  split.
  - eapply SSorted_impl; [|exact S]. intros a b H V. unfold vr_ltb in H. destruct check; cbn [andb] in H; [|lia].
    destruct V as [V|[V1 V2]]; [discriminate|]. rewrite V1, V2, !Z.eqb_refl in H. cbn [negb] in H. lia.
  - intros ->. eapply SSorted_impl; [|exact S]. intros a b H. unfold vr_ltb, vers_le in *. cbn [andb] in H.
    destruct (r_since b =? r_since a) eqn:E1; cbn [negb] in H; [|lia]. destruct (r_depr b =? r_depr a) eqn:E3; cbn [negb] in H; lia.
Qed.

(** ** The ranges of the values *)
Lemma value_range_In ge s r : In r (value_ranges ge s) <-> exists n x, In (n, x) (en_values s) /\
  genDoesElementExist (ge_ver ge) (v_since x) (v_depr x) (negb (en_check ge s)) = true /\ r = mkRange (v_value x) (v_value x) (v_since x) (v_depr x).
Proof.
  unfold value_ranges. rewrite in_map_iff. split.
  - intros ([n x] & <- & I). apply filter_In in I as [I E]. cbn [snd] in *. eauto 6.
  - intros (n & x & I & E & ->). exists (n, x). split; [reflexivity|]. apply filter_In. auto.
Qed.
Lemma value_ranges_proper ge s : enum_gen s -> Forall (proper (big_of s)) (value_ranges ge s).
Proof.
  intros G. apply Forall_forall. intros r I. apply value_range_In in I as (n & x & I & _ & ->). destruct (value_In s n x G I) as (_ & _ & [A _] & _).
  unfold proper, r64. cbn [r_min r_max]. split; [split; exact A|lia].
Qed.
Record ranges_ok (ge : gen_env) (s : enum_state) (rs : list vrange) : Prop := {
  rk_covers : forall (P : Z -> Z -> Prop) v, (en_check ge s = false -> forall x y, P x y) ->
    (exists r, In r rs /\ P (r_since r) (r_depr r) /\ covers (big_of s) r v) <->
    (exists n x, In (n, x) (en_values s) /\ genDoesElementExist (ge_ver ge) (v_since x) (v_depr x) (negb (en_check ge s)) = true /\
       P (v_since x) (v_depr x) /\ stands_for (en_type s) (v_value x) v);
  rk_proper : Forall (proper (big_of s)) rs;
  rk_ends : forall r, In r rs -> exists n x n' y, In (n, x) (en_values s) /\ In (n', y) (en_values s) /\ r_min r = v_value x /\ r_max r = v_value y /\
    r_since r = v_since x /\ r_depr r = v_depr x /\ genDoesElementExist (ge_ver ge) (v_since x) (v_depr x) (negb (en_check ge s)) = true;
  rk_vers : en_check ge s = true -> StronglySorted vers_le rs;
  rk_nonempty : rs <> [] }.
Lemma enum_ranges_ok ge s rs : enum_gen s -> enum_ranges ge s = Ok rs -> ranges_ok ge s rs.
Proof.
  intros G H. unfold enum_ranges in H. destruct (ranges_order (big_of s) (en_check ge s) (value_ranges ge s)) as [S1 S2]. fold (big_of s) in H.
  set (l0 := isort (vr_ltb (big_of s) (en_check ge s)) (value_ranges ge s)) in *.
  assert (Il : forall r, In r l0 <-> In r (value_ranges ge s)) by (intros r; apply sort_In).
  assert (Pl : Forall (proper (big_of s)) l0) by (apply Forall_forall; intros r I; apply Il in I; revert r I; apply Forall_forall, value_ranges_proper, G).
  clearbody l0. destruct l0 as [|a l]; [discriminate|]. apply Ok_inj in H. subst rs. constructor.
  - intros P v HP. rewrite (merge_covers (big_of s) (en_check ge s) P v HP l a S1 Pl). split.
    + intros (r & I & Hp & Hc). apply Il, value_range_In in I as (n & x & I & E & ->). cbn [r_since r_depr] in Hp. exists n, x. split; [exact I|]. split; [exact E|]. split; [exact Hp|].
      apply stands_uns. unfold covers in Hc. cbn [r_min r_max] in Hc. unfold big_of in Hc. lia.
    + intros (n & x & I & E & Hp & Hs). exists (mkRange (v_value x) (v_value x) (v_since x) (v_depr x)). split; [apply Il, value_range_In; eauto 6|]. split; [exact Hp|].
      unfold covers. cbn [r_min r_max]. apply stands_uns in Hs. unfold big_of. lia.
  - now apply merge_proper.
  - intros r I. apply merge_ends in I as (x & y & X & Y & E1 & E2 & E3 & E4). apply Il, value_range_In in X as (n & x' & I1 & G1 & ->). apply Il, value_range_In in Y as (n' & y' & I2 & _ & ->).
    cbn [r_min r_max r_since r_depr] in *. exists n, x', n', y'. auto 8.
  - intros C. apply merge_vers. exact (S2 C).
  - destruct l; cbn [merge_from]; [discriminate|]. clear. revert a v. induction l as [|b l IH]; intros a v; cbn [merge_from]; destruct ((en_check ge s && _) || _); try discriminate. apply IH.
Qed.

(** ** Options *)
Lemma clear_uns s n x : enum_gen s -> clear_numbers s -> In (n, x) (en_values s) -> uns (en_opt_big s) (v_value x) = uns (big_of s) (v_value x).
Proof.
  intros G C I. destruct (value_In s n x G I) as (_ & _ & [A B] & _). unfold en_opt_big, big_of. destruct C as [C|[[C1 C2]|C]].
  - rewrite C. reflexivity.
  - destruct (en_type s); try reflexivity; try congruence; cbn [is_big]; destruct (8 <=? en_length s) eqn:E; try lia; reflexivity.
  - assert (Z0 : 0 <= uns (is_big (en_type s)) (v_value x) < 2 ^ 63) by (apply (C n x); split; [exact I|now apply stands_uns]).
    assert (Zv : 0 <= v_value x <= int_max).
    { unfold uns in Z0. destruct (is_big (en_type s)); [|unfold int_max; lia]. unfold is64, int_min, int_max in *. destruct (Z_lt_le_dec (v_value x) 0) as [N|]; [|lia].
      rewrite to_u64_neg in Z0 by (unfold int_min; lia). unfold two64 in Z0. lia. }
    unfold uns. rewrite (to_u64_nonneg_s _ Zv). destruct (match en_type s with Uint64 => true | Uintvar => false | _ => 8 <=? en_length s end), (is_big (en_type s)); reflexivity.
Qed.
Lemma range_opts ge s rs us o v : enum_gen s -> clear_numbers s -> ranges_ok ge s rs -> incl us rs -> mapM (range_opt (en_opt_big s)) us = Ok o ->
  Forall restricts o /\ ((exists x, In x o /\ accepts x v) <-> exists r, In r us /\ covers (big_of s) r v).
Proof.
  intros G C R Iu H. apply mapM_Forall2 in H.
  assert (K : forall r x, In r us -> range_opt (en_opt_big s) r = Ok x -> restricts x /\ (accepts x v <-> covers (big_of s) r v)).
  { intros r x I E. apply Iu in I. pose proof (rk_proper _ _ _ R) as P. rewrite Forall_forall in P. destruct (P r I) as [P1 P2].
    destruct (range_opt_spec _ r x v P1 E) as [Rx Ax]. split; [exact Rx|]. rewrite Ax, covers_as_big by exact P1.
    destruct (rk_ends _ _ _ R r I) as (n & a & n' & b & Ia & Ib & E1 & E2 & _). unfold covers. rewrite E1, E2, (clear_uns s n a G C Ia), (clear_uns s n' b G C Ib). tauto. }
  clear Iu. induction H as [|r x us o E F IH]; [split; [constructor|]; split; intros (y & [] & _)|].
  destruct (K r x (or_introl eq_refl) E) as [Rx Ax]. destruct IH as [Ro Ao]; [intros r' x' I; apply K; now right|]. split; [constructor; assumption|]. split.
  - intros (y & [<-|I] & A); [exists r; split; [now left|tauto]|]. destruct (proj1 Ao (ex_intro _ y (conj I A))) as (r' & I' & A'). exists r'. split; [now right|exact A'].
  - intros (y & [<-|I] & A); [exists x; split; [now left|tauto]|]. destruct (proj2 Ao (ex_intro _ y (conj I A))) as (r' & I' & A'). exists r'. split; [now right|exact A'].
Qed.
Lemma base_valid_app A R v : Forall neutral A -> base_valid (A ++ R) v <-> base_valid R v.
Proof.
  intros N. rewrite Forall_forall in N. unfold base_valid. split; intros [(o & I & Ac)|F].
  - left. exists o. apply in_app_iff in I as [I|I]; [exfalso; apply (N o I); eapply accepts_restricts; eauto|auto].
  - right. intros o I. apply F, in_app_iff. now right.
  - left. exists o. split; [apply in_app_iff; now right|exact Ac].
  - right. intros o I. apply in_app_iff in I as [I|I]; [exact (N o I)|auto].
Qed.
Lemma en_default_neutral s d : en_default_opts s = Ok d -> Forall neutral d.
Proof.
  unfold en_default_opts. destruct (en_default s =? 0); [intros H; apply Ok_inj in H; subst d; constructor|]. destruct ((en_default s <? 0) && _).
  - intros H. apply Ok_inj in H. subst d. repeat constructor. neutral_tac.
  - intros H. apply bind_Ok in H as (t & _ & H). apply Ok_inj in H. subst d. repeat constructor. neutral_tac.
Qed.
Lemma en_length_neutral c s : Forall neutral (en_length_opts c s).
Proof.
  unfold en_length_opts. destruct (is_var (en_type s)); [repeat constructor; neutral_tac|]. destruct (negb _); [repeat constructor; neutral_tac|].
  destruct (negb _); [repeat constructor; neutral_tac|constructor].
Qed.
Lemma enum_opts_valid ge x c s o v : enum_def_opts ge x c s = Ok o -> exists r, en_ranges_opts ge s = Ok r /\ (base_valid o v <-> base_valid r v).
Proof.
  intros H. unfold enum_def_opts in H. apply bind_Ok in H as (d & Hd & H). apply bind_Ok in H as (r & Hr & H). apply Ok_inj in H. subst o.
  exists r. split; [exact Hr|]. rewrite base_valid_add_if by neutral_tac. rewrite base_valid_app by apply def_options_neutral.
  rewrite base_valid_app by exact (en_default_neutral s d Hd). now rewrite base_valid_app by apply en_length_neutral.
Qed.
(** the ranges of all versions are neighbours *)
Definition in_order (r : vrange) : Prop := 0 <= r_since r < r_depr r /\ r_depr r <= never.
Lemma take_uncond rs : Forall in_order rs -> StronglySorted vers_le rs ->
  take_while uncond (drop_while (fun r => negb (uncond r)) rs) = filter uncond rs.
Proof.
  intros O S. assert (Later : forall l, StronglySorted vers_le l -> Forall in_order l -> Forall (fun r => uncond r = true \/ 0 < r_since r) l -> take_while uncond l = filter uncond l).
  { clear. intros l S O F. induction S as [|a l S IH Fa]; [reflexivity|]. inversion O as [|? ? Oa Ol]; subst. inversion F as [|? ? [U|P] Fl]; subst; cbn [take_while filter].
    - rewrite U. f_equal. apply IH; assumption.
    - destruct (uncond a) eqn:U; [f_equal; apply IH; assumption|]. symmetry. clear - Fa P. induction l as [|b l IH]; [reflexivity|]. inversion Fa as [|? ? V Fa']; subst. cbn [filter].
      assert (uncond b = false) as ->; [|auto]. unfold uncond, vers_le in *. lia. }
  induction S as [|a l S IH Fa]; [reflexivity|]. inversion O as [|? ? Oa Ol]; subst. cbn [drop_while filter]. destruct (uncond a) eqn:U; cbn [negb].
  - cbn [take_while]. rewrite U. f_equal. apply Later; [exact S|exact Ol|]. rewrite Forall_forall in *. intros b I. specialize (Fa b I). specialize (Ol b I).
    unfold uncond, vers_le, in_order in *. unfold never in *. change not_deprecated with 4294967295 in *. lia.
  - apply IH; exact Ol.
Qed.
Lemma ranges_in_order ge s rs : enum_gen s -> ranges_ok ge s rs -> Forall in_order rs.
Proof.
  intros G R. apply Forall_forall. intros r I. destruct (rk_ends _ _ _ R r I) as (n & a & n' & b & Ia & _ & _ & _ & E3 & E4 & _). destruct (value_In s n a G Ia) as (_ & _ & _ & V).
  unfold in_order. rewrite E3, E4. exact V.
Qed.
