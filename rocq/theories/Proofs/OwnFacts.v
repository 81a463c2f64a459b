(** Fields parsed without reuse: what is written inside an element is parsed with that
    element as the parent. *)
From Verif.Model Require Import Base Common Xml Units Field FieldCommon IntField EnumField SetField FloatField OptCond Composite.
From Verif.Spec Require Import Texts Ints Versions IntSpec EnumSpec CondSpec XmlSpec FieldSpec.
From Verif.Proofs Require Import BaseFacts CommonFacts IntInv XmlFacts FieldInv FieldFacts.

Definition below (m n : node) : Prop := In m (n_children n) \/ exists c, In c (n_children n) /\ In m (n_children c).
Lemma children_of_in n ns b m : In m (parseGetChildrenOf n ns b) -> In m (n_children n).
Proof. unfold parseGetChildrenOf. intros H. apply filter_In in H. tauto. Qed.

Section Own.
Variables (rec : ctx -> node -> res field) (e : env) (Q : field -> Prop) (x xs : ctx) (p : props) (n : node).
Hypothesis Hrec : forall m f, below m n -> rec xs m = Ok f -> Q f.

Lemma prefix_own k cur d : Forall Q (own_part (snd cur)) ->
  update_prefix rec e x xs p n k cur = Ok d -> Forall Q (own_part (snd d)).
Proof.
  unfold update_prefix. intros Hc H. apply bind_Ok in H as (d1 & H1 & H2).
  assert (Hd1 : Forall Q (own_part (snd d1))).
  { unfold prefix_from_ref in H1. apply bind_Ok in H1 as (u & _ & H1).
    destruct (find_prop p k) as [[|ch r]|]; try discriminate; [|injection H1 as <-; exact Hc].
    destruct (ch_eqb ch c_sibling); inv_ok; constructor. }
  unfold prefix_as_child in H2. destruct (parseGetChildrenNamed n k) as [|ch [|]] eqn:En; try discriminate.
  - injection H2 as <-. exact Hd1.
  - destruct (parseGetChildren ch) as [|m [|]] eqn:Ec; destruct (find_prop p k); inv_ok; try exact Hd1.
    constructor; [|constructor]. eapply Hrec; [|eassumption]. right. exists ch. split.
    + apply (children_of_in n [k] false). unfold parseGetChildrenNamed in En. rewrite En. left. reflexivity.
    + apply (children_of_in ch [] false). unfold parseGetChildren in Ec. rewrite Ec. left. reflexivity.
Qed.
Lemma nested_ref_own k cur d : Forall Q (own_part cur) ->
  nested_from_ref e p k cur = Ok d -> Forall Q (own_part d).
Proof.
  unfold nested_from_ref. intros Hc H. apply bind_Ok in H as (u & _ & H).
  destruct (find_prop p k); inv_ok; [constructor|exact Hc].
Qed.
Lemma nested_child_own k em cur d : (forall f, em = Ok f -> Q f) -> Forall Q (own_part cur) ->
  nested_as_child rec xs p n k em cur = Ok d -> Forall Q (own_part d).
Proof.
  unfold nested_as_child. intros He Hc H. apply bind_Ok in H as (u & _ & H).
  destruct (parseGetChildrenNamed n k) as [|ch chs] eqn:En; destruct (parseGetChildrenOf n all_types false) as [|m ms] eqn:Em; inv_ok; try exact Hc.
  - constructor; [|constructor]. eapply Hrec; [|eassumption]. left. apply (children_of_in n all_types false). rewrite Em. left; reflexivity.
  - destruct (find_prop p k); inv_ok; [exact Hc|].
    constructor; [|constructor]. destruct (parseGetChildren ch) eqn:Ec; [apply He; assumption|]. eapply Hrec; [|eassumption].
    right. exists ch. split.
    + apply (children_of_in n [k] false). unfold parseGetChildrenNamed in En. rewrite En. left. reflexivity.
    + apply (children_of_in ch [] false). unfold parseGetChildren in Ec. rewrite Ec. left. reflexivity.
Qed.
Lemma member_nodes_below ts ns m : member_nodes n ts = Ok (Some ns) -> In m ns -> below m n.
Proof.
  unfold member_nodes. destruct (parseGetChildrenNamed n (L "members")) as [|a [|]] eqn:Ea;
    destruct (parseGetChildrenOf n ts false) as [|d ds] eqn:Ed; intros H Hm; try discriminate; inv_ok.
  - left. apply (children_of_in n ts false). rewrite Ed. exact Hm.
  - right. exists a. split; [|apply (children_of_in a [] false); exact Hm].
    apply (children_of_in n [L "members"] false). unfold parseGetChildrenNamed in Ea. rewrite Ea. left. reflexivity.
Qed.
Lemma bitfield_members_own c ms : bitfield_members rec xs n c [] = Ok ms -> Forall Q ms.
Proof.
  unfold bitfield_members. intros H. apply bind_Ok in H as (ns & Hn & H). destruct ns as [ns|]; inv_ok; [|constructor].
  apply Forall_forall. intros f Hf. eapply mapM_In in Hf as (a & Ha & E); [|eassumption].
  cbv beta in E. inv_ok. eapply Hrec; [|eassumption]. eapply member_nodes_below; eassumption.
Qed.
Lemma group_members_own sib c ms : group_members rec e xs n sib c [] = Ok ms -> Forall Q ms.
Proof.
  unfold group_members. intros H. apply bind_Ok in H as (ns & Hn & H). apply bind_Ok in H as (ms1 & H1 & H). inv_ok.
  destruct ns as [ns|]; inv_ok; [|constructor].
  revert H. apply (foldM_inv_In _ (Forall Q)); [|constructor].
  intros a b a' Hb Ha X. inv_ok. apply Forall_app. split; [exact Ha|]. constructor; [|constructor].
  eapply Hrec; [|eassumption]. eapply member_nodes_below; eassumption.
Qed.
Lemma replace_nothing same repl ms : replace_members same [] repl = Ok ms -> ms = [].
Proof.
  unfold replace_members. destruct repl as [[|f fs]|]; cbn; intros H; inv_ok; try reflexivity; discriminate.
Qed.
End Own.

Lemma kind_parse_own rec e (Q : field -> Prop) x c0 c p n k repl f :
  (forall m g, below m n -> rec (mkCtx (PField k) (c_since c) (c_deprecated c)) m = Ok g -> Q g) ->
  kind_parse rec e x c0 c p n k None repl = Ok f -> Forall Q (own_parts f).
Proof.
  intros Hrec H. unfold kind_parse in H. destruct k.
  - inv_ok. constructor.
  - inv_ok. constructor.
  - inv_ok. constructor.
  - inv_ok. constructor.
  - unfold bitfield_parse in H. inv_ok. cbn [own_parts].
    match goal with X : replace_members _ [] _ = _ |- _ => apply replace_nothing in X; subst end.
    eapply bitfield_members_own; [exact Hrec|eassumption].
  - unfold bundle_parse in H. inv_ok. cbn [own_parts].
    match goal with X : replace_members _ [] _ = _ |- _ => apply replace_nothing in X; subst end.
    eapply group_members_own; [exact Hrec|eassumption].
  - unfold string_parse in H. inv_all. cbn [own_parts]. eapply prefix_own; [exact Hrec| |eassumption]. constructor.
  - unfold data_parse in H. inv_all. cbn [own_parts]. eapply prefix_own; [exact Hrec| |eassumption]. constructor.
  - unfold list_parse in H. inv_ok.
    repeat match goal with X : nested_from_ref _ _ _ _ = Ok _ |- _ => eapply nested_ref_own in X; [|constructor] end.
    repeat match goal with X : nested_as_child _ _ _ _ _ _ _ = Ok _ |- _ =>
      eapply nested_child_own in X; [|exact Hrec|intros; discriminate|eassumption] end.
    subst.
    repeat match goal with X : update_prefix _ _ _ _ _ _ _ _ = Ok _ |- _ => eapply prefix_own in X; [|exact Hrec|constructor] end.
    cbn [own_parts]. repeat (apply Forall_app; split; try assumption).
    match goal with |- Forall Q (own_part (snd (if ?b then _ else _))) => destruct b; [constructor|assumption] end.
  - apply bind_Ok in H as (u & _ & H). unfold ref_parse in H. apply bind_Ok in H as (u' & _ & H).
    destruct (find_prop p (L "field")); inv_ok; constructor.
  - unfold optional_parse in H. inv_ok.
    repeat match goal with X : nested_from_ref _ _ _ _ = Ok _ |- _ => eapply nested_ref_own in X; [|constructor] end.
    repeat match goal with X : nested_as_child _ _ _ _ _ _ _ = Ok _ |- _ =>
      eapply nested_child_own in X; [|exact Hrec|intros; discriminate|eassumption] end.
    subst. match goal with X : Forall Q (own_part (Some ?y)) |- _ => destruct y as [[|] gg]; cbn in *; [exact X|constructor] end.
  - unfold variant_parse in H. inv_ok. cbn [own_parts].
    match goal with X : replace_members _ [] _ = _ |- _ => apply replace_nothing in X; subst end.
    eapply group_members_own; [exact Hrec|eassumption].
Qed.

(** ** versions of a field element *)
Definition member_parent (x : ctx) : Prop := match x_parent x with PField _ | PMessage => True | _ => False end.
Lemma field_parse_inv fuel e x n f : field_parse fuel e x n = Ok f -> exists fuel' k p c0 old repl c,
  fuel = S fuel' /\ assoc (n_name n) kind_names = Some k /\
  field_props n (extra_props k) (possible_props k) = Ok p /\ check_reuse e x k p = Ok (c0, old) /\
  replacements (field_parse fuel' e) e n (replace_types k) (mkCtx (PField k) (c_since c0) (c_deprecated c0)) = Ok repl /\
  update_common e x p c0 = Ok c /\ kind_parse (field_parse fuel' e) e x c0 c p n k old repl = Ok f /\
  verify_field e f = Ok tt.
Proof.
  destruct fuel as [|fuel]; [discriminate|]. intros H. cbn [field_parse] in H.
  apply bind_Ok in H as (k & Hk & H). apply of_opt_Ok in Hk.
  apply bind_Ok in H as (p & Hp & H). apply bind_Ok in H as ([c0 old] & Hr & H).
  apply bind_Ok in H as (repl & Hrep & H). apply bind_Ok in H as (c & Hc & H).
  apply bind_Ok in H as (f' & Hkp & H). apply bind_Ok in H as ([] & Hv & H). injection H as ->.
  exists fuel, k, p, c0, old, repl, c. auto 10.
Qed.
Lemma extra_not_common k s : In s common_props -> ~ In s (extra_props k).
Proof.
  intros H1 H2. assert (X : forallb (fun a => negb (mem_str a (extra_props k))) common_props = true) by (destruct k; vm_compute; reflexivity).
  rewrite forallb_forall in X. specialize (X s H1). apply negb_true_iff in X. apply mem_str_nIn in X. contradiction.
Qed.
Lemma possible_not_common k s : In s common_props -> ~ In s (possible_props k).
Proof.
  intros H1 H2. assert (X : forallb (fun a => negb (mem_str a (possible_props k))) common_props = true) by (destruct k; vm_compute; reflexivity).
  rewrite forallb_forall in X. specialize (X s H1). apply negb_true_iff in X. apply mem_str_nIn in X. contradiction.
Qed.
Lemma common_supplied n k p s : field_props n (extra_props k) (possible_props k) = Ok p -> In s common_props ->
  supplied n s (values_of p s).
Proof.
  intros H Hs. eapply field_props_supplied; [exact H| |left; split; [exact Hs|apply extra_not_common; exact Hs]|apply possible_not_common; exact Hs].
  intros ->. revert Hs. apply mem_str_nIn. vm_compute. reflexivity.
Qed.
Lemma In_dec_eval k l : mem_str k l = true -> In k l.
Proof. apply mem_str_In. Qed.
Lemma update_common_versions e x p c0 c : update_common e x p c0 = Ok c -> exists removed,
  update_versions e x p = Ok (c_since c, c_deprecated c, removed) /\ c_removed c = removed /\ c_inBitfield c = c_inBitfield c0.
Proof. unfold update_common. intros H. inv_all. cbn. eexists. split; [eassumption|auto]. Qed.
Lemma field_versions fuel e x n f : field_parse fuel e x n = Ok f -> exists ss ds,
  supplied n (L "sinceVersion") ss /\ supplied n (L "deprecated") ds /\
  (member_parent x -> version_text (hd_error ss) (x_since x) (c_since (f_common f)) /\
     version_text (hd_error ds) (x_depr x) (c_deprecated (f_common f)) /\
     (x_depr x <= never -> consistent_versions (e_version e) (x_since x) (x_depr x) (c_since (f_common f)) (c_deprecated (f_common f)))) /\
  (~ member_parent x -> c_since (f_common f) = 0 /\ c_deprecated (f_common f) = never).
Proof.
  intros H. apply field_parse_inv in H as (fuel' & k & p & c0 & old & repl & c & -> & Hk & Hp & Hr & Hrep & Hc & Hkp & Hv).
  apply kind_parse_common in Hkp as (_ & -> & -> & _).
  apply update_common_versions in Hc as (removed & Hc & _).
  exists (values_of p (L "sinceVersion")), (values_of p (L "deprecated")).
  split; [eapply common_supplied; [exact Hp|apply In_dec_eval; reflexivity]|].
  split; [eapply common_supplied; [exact Hp|apply In_dec_eval; reflexivity]|].
  rewrite <- !find_values. unfold update_versions in Hc. unfold member_parent.
  do 3 (apply bind_Ok in Hc as (? & _ & Hc)). apply bind_Ok in Hc as ([s d] & V & Hc).
  apply bind_Ok in Hc as (r & _ & Hc). injection Hc as E1 E2 E3. rewrite <- E1, <- E2. clear E1 E2 E3.
  destruct (x_parent x) eqn:Ex; split; intros M; try tauto; try (split; reflexivity); cbv beta iota in *;
    destruct (versions_ok _ _ _ _ _ _ V) as (A & B & _); (split; [exact A|]; split; [exact B|]; intros Hn;
    apply (versions_spec _ _ _ _ _ _ Hn) in V; apply V).
Qed.

Lemma no_reuse_old n k p e x c0 old : without_reuse n -> field_props n (extra_props k) (possible_props k) = Ok p ->
  check_reuse e x k p = Ok (c0, old) -> old = None.
Proof.
  intros W Hp Hr. apply check_reuse_old in Hr as [_ Hr].
  assert (S : supplied n (L "reuse") (values_of p (L "reuse"))) by (eapply common_supplied; [exact Hp|apply In_dec_eval; reflexivity]).
  destruct S as (raw & as_ & ms & cs & E & A & B & C & D). inversion W as [n' W1 W2 W3]; subst n'.
  assert (raw = []). { clear - A W1. induction A as [|v l vs A IH|k' v l vs N A IH]; [reflexivity| |].
    - exfalso. eapply W1; [left; reflexivity|reflexivity].
    - apply IH. intros. eapply W1. right; eassumption. }
  assert (ms = []). { clear - C W2. induction C as [|a ch l ms C IH|m l ms N C IH]; [reflexivity| |].
    - exfalso. eapply W2; [left; reflexivity|reflexivity].
    - apply IH. intros. eapply W2. right; assumption. }
  subst. inversion B; inversion D; subst. rewrite find_values, E in Hr. cbn in Hr. tauto.
Qed.
Lemma without_reuse_below m n : without_reuse n -> below m n -> without_reuse m.
Proof.
  intros W [H|(c & H1 & H2)].
  - inversion W; auto.
  - inversion W as [? _ _ W3]; subst. specialize (W3 _ H1). inversion W3; auto.
Qed.
Lemma own_versions e fuel : forall x n f, without_reuse n -> x_depr x <= never -> field_parse fuel e x n = Ok f ->
  forall g m, inside g f -> In m (own_parts g) ->
  consistent_versions (e_version e) (c_since (f_common g)) (c_deprecated (f_common g))
                      (c_since (f_common m)) (c_deprecated (f_common m)).
Proof.
  induction fuel as [|fuel IH]; intros x n f W Hx H g m Hg Hm; [discriminate|].
  pose proof H as Hparse.
  apply field_parse_inv in H as (fuel' & k & p & c0 & old & repl & c & E & Hk & Hp & Hr & Hrep & Hc & Hkp & Hv).
  injection E as <-. rewrite (no_reuse_old _ _ _ _ _ _ _ W Hp Hr) in Hkp.
  pose proof (kind_parse_common _ _ _ _ _ _ _ _ _ _ _ Hkp) as (_ & C1 & C2 & _).
  assert (Hd : c_deprecated c <= never).
  { apply field_versions in Hparse as (ss & ds & _ & _ & M & N). rewrite C1, C2 in *.
    assert (member_parent x \/ ~ member_parent x) as [X|X] by (unfold member_parent; destruct (x_parent x); tauto).
    - destruct (M X) as (_ & _ & Z). specialize (Z Hx). unfold consistent_versions in Z. lia.
    - destruct (N X) as [_ ->]. lia. }
  assert (K : Forall (fun h => consistent_versions (e_version e) (c_since c) (c_deprecated c) (c_since (f_common h)) (c_deprecated (f_common h)) /\
      (forall g m, inside g h -> In m (own_parts g) -> consistent_versions (e_version e) (c_since (f_common g)) (c_deprecated (f_common g))
                      (c_since (f_common m)) (c_deprecated (f_common m)))) (own_parts f)).
  { eapply kind_parse_own; [|exact Hkp]. intros m' g' B R. split.
    - apply field_versions in R as (ss & ds & _ & _ & M & _). destruct (M I) as (_ & _ & Z). exact (Z Hd).
    - eapply IH; [eapply without_reuse_below; eassumption| |exact R]. exact Hd. }
  rewrite Forall_forall in K. inversion Hg as [|g' h f' Hh Hin]; subst.
  - rewrite C1, C2. apply K. exact Hm.
  - destruct (K _ Hh) as [_ K']. eapply K'; eassumption.
Qed.
(** members of the outermost field are never older than it, also when reused *)
Lemma bump_ge v f : v <= c_since (f_common (bump_since v f)).
Proof. unfold bump_since. rewrite map_common_common. cbn. lia. Qed.
Lemma member_versions fuel e x n f m : field_parse fuel e x n = Ok f -> x_depr x <= never -> In m (f_members f) ->
  c_since (f_common f) <= c_since (f_common m).
Proof.
  intros H Hx Hm. pose proof H as Hparse.
  apply field_parse_inv in H as (fuel' & k & p & c0 & old & repl & c & E & Hk & Hp & Hr & Hrep & Hc & Hkp & Hv).
  pose proof (kind_parse_common _ _ _ _ _ _ _ _ _ _ _ Hkp) as (K & C1 & C2 & _).
  assert (Hd : c_deprecated c <= never).
  { apply field_versions in Hparse as (ss & ds & _ & _ & M & N). rewrite C1, C2 in *.
    assert (member_parent x \/ ~ member_parent x) as [X|X] by (unfold member_parent; destruct (x_parent x); tauto).
    - destruct (M X) as (_ & _ & Z). specialize (Z Hx). unfold consistent_versions in Z. lia.
    - destruct (N X) as [_ ->]. lia. }
  rewrite C1. pose proof (reuse_old_ok _ _ _ _ _ _ Hr) as Ho.
  assert (G : forall sib ms0 ms, group_members (field_parse fuel' e) e (mkCtx (PField k) (c_since c) (c_deprecated c)) n sib c ms0 = Ok ms ->
    Forall (fun m => c_since c <= c_since (f_common m)) ms).
  { intros sib ms0 ms G. unfold group_members in G. apply bind_Ok in G as (ns & Hn & G). apply bind_Ok in G as (ms1 & H1 & G). inv_ok.
    assert (Kp : Forall (fun m => c_since c <= c_since (f_common m)) (kept_members c ms0)).
    { apply Forall_map. apply Forall_forall. intros y _. apply bump_ge. }
    destruct ns as [ns|]; inv_ok; [|exact Kp].
    match goal with X : foldM _ _ _ = Ok _ |- _ => revert X end. apply (foldM_inv _ (Forall _)); [|exact Kp].
    intros a b a' Ha X. inv_ok. apply Forall_app. split; [exact Ha|]. constructor; [|constructor].
    match goal with X : field_parse _ _ _ _ = Ok _ |- _ => apply field_versions in X as (ss & ds & _ & _ & M & _) end.
    destruct (M I) as (_ & _ & Z). specialize (Z Hd). unfold consistent_versions in Z. cbn in Z. lia. }
  destruct k; try (destruct f; try discriminate K; destruct Hm; fail).
  - apply bitfield_inv in Hkp as (en & ms & vc & ms0 & -> & H1 & H2 & _); [|exact Ho]. cbn [f_members] in Hm.
    unfold bitfield_members in H2. apply bind_Ok in H2 as (ns & Hn & H2). destruct ns as [ns|]; inv_ok.
    + match goal with X : mapM _ _ = Ok _ |- _ => eapply mapM_In in X as (a & Ha & X); [|exact Hm]; cbv beta in X; inv_ok end.
      match goal with X : same_versions _ _ = true |- _ => unfold same_versions in X; lia end.
    + apply in_map_iff in Hm as (y & <- & _). apply bump_ge.
  - apply bundle_inv in Hkp as (ms & als & vc & ms0 & als0 & -> & H1 & H2 & _); [|exact Ho]. apply G in H2.
    rewrite Forall_forall in H2. apply H2. exact Hm.
  - apply variant_inv in Hkp as (ms & d & ms0 & d0 & -> & H1 & H2 & _); [|exact Ho]. apply G in H2.
    rewrite Forall_forall in H2. apply H2. exact Hm.
Qed.
