(** The fuel of [field_parse] is never used up: any fuel from the nesting depth of the element
    on gives the same result, so [parse_field] is what the unbounded recursion computes. *)
From Coq Require Import ZifyBool ZifyNat.
From Verif.Model Require Import Base Common Xml Units Field FieldCommon IntField EnumField SetField FloatField OptCond Composite.
From Verif.Spec Require Import Texts IntSpec FieldSpec.
From Verif.Proofs Require Import BaseFacts CommonFacts.

Lemma depth_child m n : In m (n_children n) -> (depth m < depth n)%nat.
Proof.
  destruct n as [nm a ch|t|]; cbn [n_children]; try (intros []; fail). intros H. cbn [depth]. apply Nat.lt_succ_r.
  induction ch as [|y ch IH]; [destruct H|]. destruct H as [->|H]; [|specialize (IH H)]; lia.
Qed.
Lemma of_children n l s m : In m (parseGetChildrenOf n l s) -> In m (n_children n).
Proof. intros H. apply filter_In in H as [H _]. exact H. Qed.
Lemma mapM_ext {A B} (h g : A -> res B) l : (forall a, In a l -> h a = g a) -> mapM h l = mapM g l.
Proof.
  induction l as [|a l IH]; intros H; [reflexivity|]. cbn. rewrite (H a (or_introl eq_refl)). rewrite IH; [reflexivity|].
  intros b Hb. apply H. right. exact Hb.
Qed.
Lemma foldM_ext {A B} (h g : A -> B -> res A) l : (forall a b, In b l -> h a b = g a b) -> forall a, foldM h l a = foldM g l a.
Proof.
  induction l as [|b l IH]; intros H a; [reflexivity|]. cbn. rewrite (H a b (or_introl eq_refl)).
  destruct (g a b); cbn; try reflexivity. apply IH. intros a' b' Hb. apply H. right. exact Hb.
Qed.
Lemma bind_ext {A B} (r : res A) (h g : A -> res B) : (forall a, r = Ok a -> h a = g a) -> bind r h = bind r g.
Proof. destruct r; cbn; auto. Qed.

Section Agree.
Variables (rec rec' : ctx -> node -> res field) (e : env) (x xs : ctx) (p : props) (n : node).
(** child or grandchild *)
Definition below (m n : node) : Prop := In m (n_children n) \/ exists y, In y (n_children n) /\ In m (n_children y).
Hypothesis agree : forall x m, below m n -> rec x m = rec' x m.
Lemma update_prefix_agree k cur : update_prefix rec e x xs p n k cur = update_prefix rec' e x xs p n k cur.
Proof.
  unfold update_prefix. apply bind_ext. intros d _. unfold prefix_as_child.
  destruct (parseGetChildrenNamed n k) as [|ch [|]] eqn:E; try reflexivity.
  destruct (parseGetChildren ch) as [|m [|]] eqn:E'; try reflexivity. destruct (find_prop p k); [reflexivity|].
  rewrite agree; [reflexivity|]. right. exists ch. split; eapply of_children.
  - unfold parseGetChildrenNamed in E. rewrite E. left. reflexivity.
  - unfold parseGetChildren in E'. rewrite E'. left. reflexivity.
Qed.
Lemma nested_agree k em cur : nested_as_child rec xs p n k em cur = nested_as_child rec' xs p n k em cur.
Proof.
  unfold nested_as_child. apply bind_ext. intros _ _.
  destruct (parseGetChildrenNamed n k) as [|ch chs] eqn:E; destruct (parseGetChildrenOf n all_types false) as [|m ms] eqn:E'; try reflexivity.
  - rewrite agree; [reflexivity|]. left. eapply of_children. rewrite E'. left. reflexivity.
  - apply bind_ext. intros _ _. destruct (find_prop p k); [reflexivity|].
    destruct (parseGetChildren ch) as [|m ?] eqn:E2; [reflexivity|]. rewrite agree; [reflexivity|].
    right. exists ch. split; eapply of_children.
    + unfold parseGetChildrenNamed in E. rewrite E. left. reflexivity.
    + unfold parseGetChildren in E2. rewrite E2. left. reflexivity.
Qed.
Lemma replacements_agree ts xr : replacements rec e n ts xr = replacements rec' e n ts xr.
Proof.
  unfold replacements. destruct (parseGetChildrenNamed n (L "replace")) as [|m [|]] eqn:E; try reflexivity.
  destruct (negb (member_replace_supported e)); [reflexivity|]. apply bind_ext. intros _ _.
  rewrite (mapM_ext (rec xr) (rec' xr)); [reflexivity|]. intros a Ha. apply agree. right. exists m. split; eapply of_children.
  - unfold parseGetChildrenNamed in E. rewrite E. left. reflexivity.
  - exact Ha.
Qed.
Lemma member_nodes_below types ns m : member_nodes n types = Ok (Some ns) -> In m ns -> below m n.
Proof.
  unfold member_nodes. destruct (parseGetChildrenNamed n (L "members")) as [|y [|]] eqn:E;
    destruct (parseGetChildrenOf n types false) as [|d ds] eqn:E'; try discriminate.
  - intros H Hm. inv_ok. left. eapply of_children. rewrite E'. exact Hm.
  - intros H Hm. inv_ok. right. exists y. split; eapply of_children.
    + unfold parseGetChildrenNamed in E. rewrite E. left. reflexivity.
    + exact Hm.
Qed.
Lemma bitfield_members_agree c ms0 : bitfield_members rec xs n c ms0 = bitfield_members rec' xs n c ms0.
Proof.
  unfold bitfield_members. apply bind_ext. intros [ns|] Hn; [|reflexivity]. apply bind_ext. intros _ _.
  match goal with |- bind (mapM ?h _) _ = bind (mapM ?g _) _ => rewrite (mapM_ext h g); [reflexivity|] end.
  intros a Ha. rewrite agree; [reflexivity|]. eapply member_nodes_below; eassumption.
Qed.
Lemma group_members_agree sib c ms0 : group_members rec e xs n sib c ms0 = group_members rec' e xs n sib c ms0.
Proof.
  unfold group_members. apply bind_ext. intros [ns|] Hn; [|reflexivity].
  match goal with |- bind (bind (foldM ?h _ ?a) _) _ = bind (bind (foldM ?g _ _) _) _ => rewrite (foldM_ext h g); [reflexivity|] end.
  intros a b Hb. rewrite agree; [reflexivity|]. eapply member_nodes_below; eassumption.
Qed.
End Agree.
Lemma kind_parse_agree rec rec' e x c0 c p n k old repl : (forall x m, below m n -> rec x m = rec' x m) ->
  kind_parse rec e x c0 c p n k old repl = kind_parse rec' e x c0 c p n k old repl.
Proof.
  intros A. unfold kind_parse. destruct k; try reflexivity.
  - match goal with |- (let (_, _) := ?t in _) = _ => destruct t as [[? ?] ?] end. unfold bitfield_parse.
    apply bind_ext. intros ? _. apply bind_ext. intros ? _. rewrite (bitfield_members_agree rec rec'); [reflexivity|exact A].
  - apply bind_ext. intros ra _. match goal with |- (let (_, _) := ?t in _) = _ => destruct t as [[? ?] ?] end. unfold bundle_parse.
    apply bind_ext. intros ? _. rewrite (group_members_agree rec rec'); [reflexivity|exact A].
  - apply bind_ext. intros ? _. unfold string_parse. match goal with |- (let (_, _) := ?t in _) = _ => destruct t as [? ?] end.
    do 2 (apply bind_ext; intros ? _). rewrite (update_prefix_agree rec rec'); [reflexivity|exact A].
  - apply bind_ext. intros ? _. unfold data_parse. match goal with |- (let (_, _) := ?t in _) = _ => destruct t as [? ?] end.
    apply bind_ext; intros ? _. rewrite (update_prefix_agree rec rec'); [reflexivity|exact A].
  - apply bind_ext. intros ? _. unfold list_parse. match goal with |- (let (_, _) := ?t in _) = _ => destruct t as [[[[[? ?] ?] ?] ?] ?] end.
    apply bind_ext. intros ? _. rewrite (nested_agree rec rec'); [|exact A].
    do 3 (apply bind_ext; intros ? _). rewrite (update_prefix_agree rec rec'); [|exact A].
    do 2 (apply bind_ext; intros ? _). rewrite (update_prefix_agree rec rec'); [|exact A].
    do 3 (apply bind_ext; intros ? _). rewrite (update_prefix_agree rec rec'); [|exact A].
    do 2 (apply bind_ext; intros ? _). rewrite (update_prefix_agree rec rec'); [reflexivity|exact A].
  - apply bind_ext. intros ? _. unfold optional_parse. match goal with |- (let (_, _) := ?t in _) = _ => destruct t as [[? ?] ?] end.
    do 4 (apply bind_ext; intros ? _). rewrite (nested_agree rec rec'); [reflexivity|exact A].
  - match goal with |- (let (_, _) := ?t in _) = _ => destruct t as [? ?] end. unfold variant_parse.
    apply bind_ext. intros ? _. rewrite (group_members_agree rec rec'); [reflexivity|exact A].
Qed.
Theorem fuel_enough e fuel fuel' x n : (depth n <= fuel)%nat -> (depth n <= fuel')%nat -> field_parse fuel e x n = field_parse fuel' e x n.
Proof.
  revert fuel' x n. induction fuel as [|fuel IH]; intros fuel' x n H H'.
  - exfalso. destruct n; cbn in H; lia.
  - destruct fuel' as [|fuel']; [exfalso; destruct n; cbn in H'; lia|]. cbn [field_parse].
    assert (A : forall x m, below m n -> field_parse fuel e x m = field_parse fuel' e x m).
    { intros y m Hm. assert (depth m < depth n)%nat.
      { destruct Hm as [Hm|(z & Hz & Hm)]; [apply depth_child; exact Hm|]. apply depth_child in Hz. apply depth_child in Hm. lia. }
      apply IH; lia. }
    do 2 (apply bind_ext; intros ? _). apply bind_ext. intros [c0 old] _.
    rewrite (replacements_agree (field_parse fuel e) (field_parse fuel' e)); [|exact A].
    do 2 (apply bind_ext; intros ? _). rewrite (kind_parse_agree (field_parse fuel e) (field_parse fuel' e)); [reflexivity|exact A].
Qed.
