(** Facts about accepted fields: common attributes, names, versions, members. *)
From Verif.Model Require Import Base Common Xml Units Field FieldCommon IntField EnumField SetField FloatField OptCond Composite.
From Verif.Spec Require Import Texts Ints Versions IntSpec EnumSpec CondSpec FieldSpec.
From Verif.Proofs Require Import BaseFacts CommonFacts IntInv FieldInv.

Definition old_members (old : option field) : list field := match old with Some o => f_members o | None => [] end.
Definition old_ok (k : kind) (old : option field) : Prop := forall o, old = Some o -> f_kind o = k.
Lemma reuse_old_ok e x k p c0 old : check_reuse e x k p = Ok (c0, old) -> old_ok k old.
Proof.
  intros H o ->. apply check_reuse_old in H as [_ H]. destruct (find_prop p (L "reuse")).
  - destruct H as (g & E & _ & K & _). injection E as ->. exact K.
  - destruct H as [E _]. discriminate.
Qed.

Section Inv.
Variables (rec : ctx -> node -> res field) (e : env) (x : ctx) (c0 c : common) (p : props) (n : node).
Variables (old : option field) (repl : option (list field)) (f : field).
Lemma bitfield_inv : old_ok KBitfield old -> kind_parse rec e x c0 c p n KBitfield old repl = Ok f ->
  exists en ms vc ms0, f = FBitfield c en ms vc /\
    replace_members (same_versions c0) (map clone (old_members old)) repl = Ok ms0 /\
    bitfield_members rec (mkCtx (PField KBitfield) (c_since c) (c_deprecated c)) n c ms0 = Ok ms /\
    update_valid_cond e p n KBitfield ms (match old with Some o => f_valid_cond o | None => None end) = Ok vc.
Proof.
  intros Ho H. unfold kind_parse in H.
  assert (E : match old with Some (FBitfield _ en ms vc) => (Some en, map clone ms, vc) | _ => (None, [], None) end =
    (match old with Some (FBitfield _ en _ _) => Some en | _ => None end, map clone (old_members old),
     match old with Some o => f_valid_cond o | None => None end)).
  { destruct old as [o|]; [|reflexivity]. specialize (Ho o eq_refl). destruct o; try discriminate Ho. reflexivity. }
  rewrite E in H. unfold bitfield_parse in H. inv_ok. subst. eexists _, _, _, _. split; [reflexivity|]. eauto.
Qed.
Lemma bundle_inv : old_ok KBundle old -> kind_parse rec e x c0 c p n KBundle old repl = Ok f ->
  exists ms als vc ms0 als0, f = FBundle c ms als vc /\
    replace_members (fun _ => true) (map clone (old_members old)) repl = Ok ms0 /\
    group_members rec e (mkCtx (PField KBundle) (c_since c) (c_deprecated c)) n true c ms0 = Ok ms /\
    one_length_member ms = true /\ update_aliases e n ms als0 = Ok als /\
    (als0 = [] \/ exists c' ms' vc', old = Some (FBundle c' ms' als0 vc')) /\
    update_valid_cond e p n KBundle ms (match old with Some o => f_valid_cond o | None => None end) = Ok vc.
Proof.
  intros Ho H. unfold kind_parse in H. apply bind_Ok in H as (ra & _ & H).
  assert (E : exists als0, match old with Some (FBundle _ ms als vc) => (map clone ms, (if ra : bool then als else []), vc) | _ => ([], [], None) end =
    (map clone (old_members old), als0, match old with Some o => f_valid_cond o | None => None end) /\
    (als0 = [] \/ exists c' ms' vc', old = Some (FBundle c' ms' als0 vc'))).
  { destruct old as [o|]; [|eexists; split; [reflexivity|auto]].
    specialize (Ho o eq_refl). destruct o; try discriminate Ho. eexists. split; [reflexivity|]. destruct ra; eauto 6. }
  destruct E as (als0 & E & Ea). rewrite E in H. unfold bundle_parse in H. inv_ok. subst.
  eexists _, _, _, _, _. split; [reflexivity|]. repeat split; eauto.
Qed.
Lemma variant_inv : old_ok KVariant old -> kind_parse rec e x c0 c p n KVariant old repl = Ok f ->
  exists ms d ms0 d0, f = FVariant c d ms /\
    replace_members (fun _ => true) (map clone (old_members old)) repl = Ok ms0 /\
    group_members rec e (mkCtx (PField KVariant) (c_since c) (c_deprecated c)) n false c ms0 = Ok ms /\
    update_default_member e p ms d0 = Ok d /\ d0 = match old with Some (FVariant _ d _) => d | _ => None end.
Proof.
  intros Ho H. unfold kind_parse in H.
  assert (E : match old with Some (FVariant _ d ms) => (map clone ms, d) | _ => ([], None) end =
    (map clone (old_members old), match old with Some (FVariant _ d _) => d | _ => None end)).
  { destruct old as [o|]; [|reflexivity]. specialize (Ho o eq_refl). destruct o; try discriminate Ho. reflexivity. }
  rewrite E in H. unfold variant_parse in H. inv_ok. subst. eexists _, _, _, _. split; [reflexivity|]. eauto.
Qed.
Lemma optional_inv : old_ok KOptional old -> kind_parse rec e x c0 c p n KOptional old repl = Ok f ->
  exists s o g d d0, f = FOptional c s o g d /\ update_opt_cond e p n d0 = Ok d /\
    d0 = match old with Some (FOptional _ _ _ _ d) => d | _ => None end.
Proof.
  intros Ho H. unfold kind_parse in H. apply bind_Ok in H as (u & _ & H). unfold optional_parse in H.
  match type of H with (let (_, _) := ?t in _) = _ => assert (X : exists s0 el, t = (s0, el, match old with Some (FOptional _ _ _ _ d) => d | _ => None end)) end.
  { destruct old as [o|]; [|eauto]. specialize (Ho o eq_refl). destruct o; try discriminate Ho. eauto. }
  destruct X as (s0 & el & X). rewrite X in H. inv_ok. eexists _, _, _, _, _. split; [reflexivity|]. eauto.
Qed.

(** what every kind keeps of the common attributes; only <ref> fills in names and the semantic type *)
Lemma kind_parse_common k : kind_parse rec e x c0 c p n k old repl = Ok f ->
  f_kind f = k /\ c_since (f_common f) = c_since c /\ c_deprecated (f_common f) = c_deprecated c /\
  c_removed (f_common f) = c_removed c /\ c_inBitfield (f_common f) = c_inBitfield c /\
  (k <> KRef -> f_common f = c).
Proof.
  intros H. unfold kind_parse in H. destruct k.
  - inv_ok. auto 7.
  - inv_ok. auto 7.
  - inv_ok. auto 7.
  - inv_ok. auto 7.
  - match type of H with (let (_, _) := ?t in _) = _ => destruct t as [[? ?] ?] end.
    unfold bitfield_parse in H. inv_ok. auto 7.
  - apply bind_Ok in H as (ra & _ & H).
    match type of H with (let (_, _) := ?t in _) = _ => destruct t as [[? ?] ?] end.
    unfold bundle_parse in H. inv_ok. auto 7.
  - apply bind_Ok in H as (u & _ & H). unfold string_parse in H.
    match type of H with (let (_, _) := ?t in _) = _ => destruct t as [? ?] end. inv_all. auto 7.
  - apply bind_Ok in H as (u & _ & H). unfold data_parse in H.
    match type of H with (let (_, _) := ?t in _) = _ => destruct t as [? ?] end. inv_all. auto 7.
  - apply bind_Ok in H as (u & _ & H). unfold list_parse in H.
    match type of H with (let (_, _) := ?t in _) = _ => destruct t as [[[[[? ?] ?] ?] ?] ?] end. inv_ok. auto 7.
  - apply bind_Ok in H as (u & _ & H). unfold ref_parse in H. apply bind_Ok in H as (u' & _ & H).
    destruct (find_prop p (L "field")); [|destruct old as [o|]; [|discriminate]; destruct o; try discriminate].
    + assert (exists o', (match old with Some (FRef _ b t) => Some (b, t) | _ => None end) = o') as (o' & E) by eauto.
      rewrite E in H. inv_ok. subst. repeat split; auto; congruence.
    + inv_ok. auto 7.
  - apply bind_Ok in H as (u & _ & H). unfold optional_parse in H.
    match type of H with (let (_, _) := ?t in _) = _ => destruct t as [[? ?] ?] end. inv_ok. auto 7.
  - match type of H with (let (_, _) := ?t in _) = _ => destruct t as [? ?] end.
    unfold variant_parse in H. inv_ok. auto 7.
Qed.
End Inv.

(** ** names of members *)
Definition names (ms : list field) : list str := map f_name ms.
Lemma names_clone ms : names (map clone ms) = names ms.
Proof. unfold names. rewrite map_map. apply map_ext. intros f. apply clone_name. Qed.
Lemma names_bump v ms : names (map (bump_since v) ms) = names ms.
Proof. unfold names. rewrite map_map. apply map_ext. intros f. apply bump_name. Qed.
Lemma replace_first_names ms m ms' : replace_first ms m = Some ms' -> names ms' = names ms.
Proof.
  revert ms'. induction ms as [|y ms IH]; intros ms' H; [discriminate|]. cbn in H.
  destruct (str_eqb (f_name m) (f_name y)) eqn:E.
  - injection H as <-. apply str_eqb_eq in E. cbn. rewrite E. reflexivity.
  - destruct (replace_first ms m) as [l|]; [|discriminate]. injection H as <-. cbn. f_equal. apply IH. reflexivity.
Qed.
Lemma replace_members_names same ms repl ms' : replace_members same ms repl = Ok ms' -> names ms' = names ms.
Proof.
  unfold replace_members. destruct repl as [fs|]; intros H; [|injection H as <-; reflexivity].
  revert H. apply (foldM_inv _ (fun l => names l = names ms)); [|reflexivity].
  intros a b a' Ha X. inv_ok. rewrite <- Ha. eapply replace_first_names; eassumption.
Qed.
Lemma NoDup_filter_map {A B} (h : A -> B) q l : NoDup (map h l) -> NoDup (map h (filter q l)).
Proof.
  induction l as [|a l IH]; cbn; intros N; [constructor|]. inversion N; subst.
  destruct (q a); [|auto]. cbn. constructor; [|auto]. intros X. apply in_map_iff in X as (b & E & Hb).
  apply filter_In in Hb as [Hb _]. apply H1. apply in_map_iff. eauto.
Qed.
Lemma kept_names c ms : NoDup (names ms) -> NoDup (names (kept_members c ms)).
Proof. intros H. unfold kept_members. rewrite names_bump. apply NoDup_filter_map. exact H. Qed.
Lemma distinct_names_spec used ms : distinct_names used ms = true <->
  NoDup (names ms) /\ forall m, In m (names ms) -> ~ In m used.
Proof.
  revert used. induction ms as [|m ms IH]; intros used; cbn.
  - split; [intros _; split; [constructor|intros ? []]|auto].
  - rewrite andb_true_iff, negb_true_iff, IH. rewrite mem_str_nIn. split.
    + intros (H1 & H2 & H3). split.
      * constructor; [|exact H2]. intros X. apply (H3 _ X). left. reflexivity.
      * intros k [<-|Hk]; [exact H1|]. intros X. apply (H3 _ Hk). right. exact X.
    + intros (H1 & H2). inversion H1; subst. split; [apply H2; left; reflexivity|]. split; [assumption|].
      intros k Hk [<-|X]; [contradiction|]. apply (H2 k); auto.
Qed.
Lemma distinct_names_nodup ms : distinct_names [] ms = true <-> NoDup (names ms).
Proof. rewrite distinct_names_spec. split; [tauto|]. intros H. split; [exact H|]. intros m _ []. Qed.

Lemma bitfield_members_names rec xs n c ms0 ms : NoDup (names ms0) -> bitfield_members rec xs n c ms0 = Ok ms -> NoDup (names ms).
Proof.
  unfold bitfield_members. intros N H. apply bind_Ok in H as (ns & _ & H). destruct ns as [ns|]; inv_ok.
  - apply distinct_names_nodup. assumption.
  - rewrite names_bump. exact N.
Qed.
Lemma group_members_names rec e xs n sib c ms0 ms : NoDup (names ms0) -> group_members rec e xs n sib c ms0 = Ok ms -> NoDup (names ms).
Proof.
  unfold group_members. intros N H. apply bind_Ok in H as (ns & _ & H). apply bind_Ok in H as (ms1 & H1 & H). inv_ok.
  destruct ns as [ns|]; inv_ok.
  - apply distinct_names_nodup. assumption.
  - apply kept_names. exact N.
Qed.

Lemma members_clone f : names (f_members (clone f)) = names (f_members f).
Proof. destruct f; try reflexivity; apply names_clone. Qed.
Lemma members_bump v f : f_members (bump_since v f) = f_members f.
Proof. destruct f; reflexivity. Qed.

Definition distinct_members (f : field) : Prop := NoDup (names (f_members f)).
Lemma accepted_distinct f : accepted f -> all distinct_members f.
Proof.
  apply accepted_all.
  - intros g H. apply all_here in H. unfold distinct_members in *. rewrite members_clone. exact H.
  - intros v g H. apply all_here in H. unfold distinct_members in *. rewrite members_bump. exact H.
  - intros fuel e x n k p c0 old repl c g He Hf Hrec Hk Hp Hr Hold Hrep Hrp Hc Hkp Hv Hparts.
    assert (Om : NoDup (names (map clone (old_members old)))).
    { rewrite names_clone. destruct old as [o|]; [|constructor]. apply (all_here _ _ (Hold o eq_refl)). }
    pose proof (reuse_old_ok _ _ _ _ _ _ Hr) as Ok_.
    assert (K : f_kind g = k) by (eapply kind_parse_common; eauto).
    unfold distinct_members. destruct k; try (destruct g; try discriminate K; constructor).
    + apply bitfield_inv in Hkp as (en & ms & vc & ms0 & -> & H1 & H2 & _); [|exact Ok_]. cbn [f_members].
      eapply bitfield_members_names; [|exact H2]. rewrite (replace_members_names _ _ _ _ H1). exact Om.
    + apply bundle_inv in Hkp as (ms & als & vc & ms0 & als0 & -> & H1 & H2 & _); [|exact Ok_]. cbn [f_members].
      eapply group_members_names; [|exact H2]. rewrite (replace_members_names _ _ _ _ H1). exact Om.
    + apply variant_inv in Hkp as (ms & d & ms0 & d0 & -> & H1 & H2 & _); [|exact Ok_]. cbn [f_members].
      eapply group_members_names; [|exact H2]. rewrite (replace_members_names _ _ _ _ H1). exact Om.
Qed.
Definition valid_name (f : field) : Prop := parseIsValidName (f_name f) = true.
Lemma accepted_names f : accepted f -> all valid_name f.
Proof.
  apply accepted_all.
  - intros g H. apply all_here in H. unfold valid_name in *. rewrite clone_name. exact H.
  - intros v g H. apply all_here in H. unfold valid_name in *. rewrite bump_name. exact H.
  - intros fuel e x n k p c0 old repl c g He Hf Hrec Hk Hp Hr Hold Hrep Hrp Hc Hkp Hv Hparts.
    unfold verify_field in Hv. inv_ok. assumption.
Qed.
