From Verif.Model Require Import Base Common Xml Units Field FieldCommon.
From Verif.Spec Require Import Texts XmlSpec.
From Verif.Proofs Require Import BaseFacts CommonFacts.

Lemma trim_trimmed s : trimmed s (trim s).
Proof. apply trim_spec. Qed.
Definition values_of (p : props) (k : str) : list str := map snd (filter (fun a => str_eqb (fst a) k) p).
Lemma find_values p k : find_prop p k = hd_error (values_of p k).
Proof.
  induction p as [|[k' v] p IH]; [reflexivity|]. unfold values_of in *. cbn. destruct (str_eqb k' k); [reflexivity|exact IH].
Qed.
Lemma count_values p k : count_prop p k = length (values_of p k).
Proof.
  induction p as [|[k' v] p IH]; [reflexivity|]. unfold values_of in *. cbn. destruct (str_eqb k' k); cbn; congruence.
Qed.
Lemma values_app p q k : values_of (p ++ q) k = values_of p k ++ values_of q k.
Proof. unfold values_of. rewrite filter_app, map_app. reflexivity. Qed.

Lemma attrs_called_det k l : forall r1 r2, attrs_called k l r1 -> attrs_called k l r2 -> r1 = r2.
Proof.
  intros r1 r2 H. revert r2. induction H as [|v l vs H IH|k' v l vs N H IH]; intros r2 R; inversion R; subst; try congruence.
  - f_equal. auto.
  - auto.
Qed.
Lemma node_props_values n k : exists raw, attrs_called k (n_attrs n) raw /\ values_of (parseNodeProps n) k = map trim raw.
Proof.
  unfold parseNodeProps. induction (n_attrs n) as [|[k' v] l (raw & H1 & H2)].
  - exists []. split; [constructor|reflexivity].
  - unfold values_of in *. cbn. destruct (str_eqb k' k) eqn:E.
    + apply str_eqb_eq in E. subst. exists (v :: raw). split; [constructor; exact H1|]. cbn. f_equal. exact H2.
    + exists raw. split; [constructor; [|exact H1]|exact H2]. apply str_eqb_neq. exact E.
Qed.
Lemma map_trim raw : Forall2 trimmed raw (map trim raw).
Proof. induction raw; constructor; auto using trim_trimmed. Qed.

Lemma get_text_spec n : element_text n (parseGetText n).
Proof.
  unfold parseGetText, element_text. destruct (existsb is_elem (n_children n)) eqn:E.
  - left. split; [|reflexivity]. apply existsb_exists in E as (m & Hm & E). destruct m; try discriminate. eauto.
  - right. split.
    + intros m Hm nm a ch ->. rewrite <- not_true_iff_false in E. apply E. apply existsb_exists. eexists; split; [exact Hm|reflexivity].
    + revert E. induction (n_children n) as [|m l IH]; [constructor|].
      destruct m; cbn; intros E; try discriminate; constructor; auto.
Qed.
Lemma trim_nil_empty s : trim s = [] -> empty_text s.
Proof.
  intros H. destruct (trim_spec s) as (a & b & E & A & B & _). rewrite H in E. rewrite E. apply Forall_app. auto.
Qed.
Lemma normalise_ne x t : normalise (x :: t) <> [].
Proof.
  intros X. pose proof (normalise_squeezed (x :: t)) as S. rewrite X in S. inversion S.
Qed.
Lemma child_value_spec m v : parseNodeValue m true = Ok v -> child_value m v /\ v <> [].
Proof.
  unfold parseNodeValue. destruct (node_props_values m (L "value")) as (raw & R1 & R2).
  assert (F : find_prop (parseNodeProps m) (L "value") = hd_error (map trim raw)) by (rewrite find_values, R2; reflexivity).
  rewrite F. clear F R2.
  assert (Det : forall raw', attrs_called (T "value") (n_attrs m) raw' -> raw' = raw).
  { intros raw' H. eapply attrs_called_det; eassumption. }
  destruct raw as [|a raw]; cbn [map hd_error].
  - destruct (trim (parseGetText m)) as [|x t] eqn:Et; cbn [is_nil negb andb]; [discriminate|].
    intros H. injection H as <-. pose proof (normalise_squeezed (x :: t)) as S. split.
    + eapply cv_text; [|apply get_text_spec|apply trim_trimmed|rewrite Et; exact S|].
      * intros a vs Ha. apply Det in Ha. discriminate.
      * apply normalise_ne.
    + apply normalise_ne.
  - rewrite trim_idem. destruct (trim a) as [|y b] eqn:Ea; cbn [is_nil negb andb].
    + destruct (trim (parseGetText m)) as [|x t] eqn:Et; cbn [is_nil negb andb]; [discriminate|].
      intros H. injection H as <-. pose proof (normalise_squeezed (x :: t)) as S. split.
      * eapply cv_text; [|apply get_text_spec|apply trim_trimmed|rewrite Et; exact S|].
        { intros a' vs Ha. apply Det in Ha. injection Ha as -> ->. apply trim_nil_empty. exact Ea. }
        apply normalise_ne.
      * apply normalise_ne.
    + destruct (trim (parseGetText m)) as [|x t] eqn:Et; cbn [is_nil negb andb]; [|discriminate].
      intros H. injection H as <-. split; [|discriminate].
      eapply cv_attr; [exact R1|rewrite <- Ea; apply trim_trimmed|discriminate|apply get_text_spec|].
      apply trim_nil_empty. exact Et.
Qed.

Lemma children_props_values cs names : forall acc p, childrenAsProps cs names true acc = Ok p ->
  forall k, exists q, p = acc ++ q /\
    (~ In k names -> values_of q k = []) /\
    (In k names -> exists ms, ms = filter (fun c => str_eqb (n_name c) k) cs /\ Forall2 child_value ms (values_of q k)).
Proof.
  induction cs as [|c cs IH]; intros acc p H k; cbn [childrenAsProps] in H.
  - injection H as <-. exists []. split; [rewrite app_nil_r; reflexivity|]. split; [reflexivity|].
    intros _. exists []. split; [reflexivity|constructor].
  - destruct (mem_str (n_name c) names) eqn:M.
    + destruct (parseNodeValue c true) as [v| |] eqn:E; try discriminate.
      apply child_value_spec in E as [CV NV]. destruct v as [|x v]; [congruence|].
      destruct (IH _ _ H k) as (q & -> & H1 & H2).
      exists ((n_name c, x :: v) :: q). split; [rewrite <- app_assoc; reflexivity|].
      apply mem_str_In in M. split.
      * intros Nk. unfold values_of. cbn. destruct (str_eqb (n_name c) k) eqn:E.
        { apply str_eqb_eq in E. subst. contradiction. } apply H1. exact Nk.
      * intros Ik. destruct (H2 Ik) as (ms & -> & F). cbn. unfold values_of. cbn.
        destruct (str_eqb (n_name c) k); eexists; (split; [reflexivity|]); [constructor; assumption|assumption].
    + destruct (IH _ _ H k) as (q & -> & H1 & H2). exists q. split; [reflexivity|]. split; [exact H1|].
      intros Ik. destruct (H2 Ik) as (ms & -> & F). cbn. destruct (str_eqb (n_name c) k) eqn:E; [|eauto].
      apply str_eqb_eq in E. subst. apply mem_str_nIn in M. contradiction.
Qed.
Lemma elements_called_filter k l : k <> [] ->
  elements_called k l (filter (fun c => str_eqb (n_name c) k) (filter is_elem l)).
Proof.
  intros Nk. induction l as [|m l IH]; [constructor|]. destruct m as [nm a ch| |]; cbn.
  - destruct (str_eqb nm k) eqn:E.
    + apply str_eqb_eq in E. subst. constructor. exact IH.
    + constructor; [|exact IH]. intros a' ch' X. injection X as -> _ _. rewrite str_eqb_refl in E. discriminate.
  - constructor; [discriminate|exact IH].
  - constructor; [discriminate|exact IH].
Qed.
Lemma get_children_filter n : parseGetChildren n = filter is_elem (n_children n).
Proof.
  unfold parseGetChildren, parseGetChildrenOf. apply filter_ext. intros m. cbn. apply andb_true_r.
Qed.
Lemma children_as_props_values n names acc p : parseChildrenAsProps n names true acc = Ok p ->
  forall k, k <> [] -> exists q, p = acc ++ q /\ (~ In k names -> values_of q k = []) /\
    (In k names -> exists ms, elements_called k (n_children n) ms /\ Forall2 child_value ms (values_of q k)).
Proof.
  unfold parseChildrenAsProps. intros H k Nk. destruct names as [|nm names]; cbn [is_nil] in H.
  - injection H as <-. exists []. split; [rewrite app_nil_r; reflexivity|]. split; [reflexivity|intros []].
  - destruct (children_props_values _ _ _ _ H k) as (q & -> & H1 & H2). exists q. split; [reflexivity|]. split; [exact H1|].
    intros Ik. destruct (H2 Ik) as (ms & -> & F). eexists. split; [|exact F]. rewrite get_children_filter.
    apply elements_called_filter. exact Nk.
Qed.
(** properties read with mustHaveValue = false do not concern other names *)
Lemma children_as_props_other n names acc p : parseChildrenAsProps n names false acc = Ok p ->
  forall k, ~ In k names -> values_of p k = values_of acc k.
Proof.
  unfold parseChildrenAsProps. intros H k Nk. destruct (is_nil names); [injection H as <-; reflexivity|].
  revert acc H. induction (parseGetChildren n) as [|c cs IH]; intros acc H; cbn [childrenAsProps] in H; [injection H as <-; reflexivity|].
  destruct (mem_str (n_name c) names) eqn:M; [|apply IH; exact H]. apply mem_str_In in M.
  destruct (parseNodeValue c false) as [v| |]; try discriminate; [|apply IH; exact H].
  destruct v as [|x v]; [apply IH; exact H|]. rewrite (IH _ H), values_app.
  unfold values_of at 2. cbn. destruct (str_eqb (n_name c) k) eqn:E; [|apply app_nil_r].
  apply str_eqb_eq in E. subst. contradiction.
Qed.

Lemma mem_nIn k l : mem_str k l = false -> ~ In k l.
Proof. apply mem_str_nIn. Qed.
(** the properties of a field element *)
Lemma field_props_supplied n extra possible p k : field_props n extra possible = Ok p -> k <> [] ->
  In k common_props /\ ~ In k extra \/ In k extra /\ ~ In k common_props -> ~ In k possible ->
  supplied n k (values_of p k).
Proof.
  unfold field_props. intros H Nk Hk Np. apply bind_Ok in H as (p1 & H1 & H). apply bind_Ok in H as (p2 & H2 & H).
  rewrite (children_as_props_other _ _ _ _ H k Np).
  apply children_as_props_values with (k := k) in H1 as (q1 & -> & A1 & B1); [|exact Nk].
  apply children_as_props_values with (k := k) in H2 as (q2 & -> & A2 & B2); [|exact Nk].
  rewrite !values_app. destruct (node_props_values n k) as (raw & R1 & R2). rewrite R2.
  unfold supplied. exists raw, (map trim raw).
  destruct Hk as [[K1 K2]|[K1 K2]].
  - destruct (B1 K1) as (ms & E & F). rewrite (A2 K2), app_nil_r.
    exists ms, (values_of q1 k). repeat split; auto using map_trim.
  - destruct (B2 K1) as (ms & E & F). rewrite (A1 K2), app_nil_r.
    exists ms, (values_of q2 k). repeat split; auto using map_trim.
Qed.
Lemma element_props_supplied n names p k : parseChildrenAsProps n names true (parseNodeProps n) = Ok p -> k <> [] ->
  In k names -> supplied n k (values_of p k).
Proof.
  intros H Nk Hk. apply children_as_props_values with (k := k) in H as (q & -> & _ & B); [|exact Nk].
  destruct (B Hk) as (ms & E & F). rewrite values_app. destruct (node_props_values n k) as (raw & R1 & R2). rewrite R2.
  exists raw, (map trim raw), ms, (values_of q k). repeat split; auto using map_trim.
Qed.
Lemma single_values p k b u : parseValidateSinglePropInstance p k b = Ok u ->
  (length (values_of p k) <= 1)%nat /\ (b = true -> length (values_of p k) = 1%nat).
Proof.
  unfold parseValidateSinglePropInstance. rewrite count_values.
  destruct (Nat.ltb 1 (length (values_of p k))) eqn:E1; [discriminate|].
  apply Nat.ltb_ge in E1. intros H. split; [exact E1|]. intros ->.
  destruct (length (values_of p k)) as [|[|]]; try discriminate; try lia; auto.
Qed.

(** the values supplied are determined by the element *)
Lemma elements_called_det k l : forall r1 r2, elements_called k l r1 -> elements_called k l r2 -> r1 = r2.
Proof.
  intros r1 r2 H. revert r2. induction H as [|a ch l ms H IH|m l ms N H IH]; intros r2 R; inversion R; subst; auto; try congruence.
  - f_equal. auto.
Qed.
Lemma trimmed_det s t1 t2 : trimmed s t1 -> trimmed s t2 -> t1 = t2.
Proof.
  assert (K : forall t, trimmed s t -> trim s = t).
  { intros t (a & b & -> & A & B & F & G). unfold trim.
    assert (Iw : forall c, is_ws c = true <-> blank c) by (intros; apply is_ws_spec).
    assert (X : drop_while is_ws (a ++ t ++ b) = drop_while is_ws (t ++ b)).
    { induction A as [|c a Hc A IH]; [reflexivity|]. cbn. apply Iw in Hc. rewrite Hc. exact IH. }
    rewrite X. clear X. destruct t as [|c t].
    - cbn [app]. replace (drop_while is_ws b) with (@nil ascii); [reflexivity|].
      induction B as [|c b Hc B IH]; [reflexivity|]. cbn. apply Iw in Hc. rewrite Hc. exact IH.
    - cbn [app drop_while]. replace (is_ws c) with false.
      2:{ symmetry. apply not_true_is_false. rewrite Iw. apply (F c t). reflexivity. }
      unfold drop_while_end. change (c :: t ++ b) with ((c :: t) ++ b). rewrite rev_app_distr.
      assert (Y : forall l, drop_while is_ws (rev b ++ l) = drop_while is_ws l).
      { intros l. apply Forall_rev in B. induction B as [|d r Hd B IH]; [reflexivity|]. cbn. apply Iw in Hd. rewrite Hd. exact IH. }
      rewrite Y. destruct (rev (c :: t)) as [|d r] eqn:E.
      + apply (f_equal (@length _)) in E. rewrite rev_length in E. discriminate.
      + cbn. replace (is_ws d) with false.
        2:{ symmetry. apply not_true_is_false. rewrite Iw. apply (G d (rev r)).
            rewrite <- (rev_involutive (c :: t)), E. reflexivity. }
        rewrite <- E. apply rev_involutive. }
  intros H1 H2. rewrite <- (K _ H1), <- (K _ H2). reflexivity.
Qed.

Lemma element_text_det n t1 t2 : element_text n t1 -> element_text n t2 -> t1 = t2.
Proof.
  intros [[(nm & a & ch & I1) E1]|[N1 E1]] [[(nm' & a' & ch' & I2) E2]|[N2 E2]].
  - congruence.
  - exfalso. eapply N2; [exact I1|reflexivity].
  - exfalso. eapply N1; [exact I2|reflexivity].
  - clear - E1 E2. revert t2 E2. induction E1; intros t2 E2; inversion E2; subst; auto.
Qed.
Lemma trimmed_empty a s : trimmed a s -> empty_text a -> s = [].
Proof.
  intros (x & y & -> & _ & _ & F & _) H. unfold empty_text in H. apply Forall_app in H as [_ H]. apply Forall_app in H as [H _].
  destruct s as [|c s]; [reflexivity|]. inversion H; subst. exfalso. eapply F; [reflexivity|assumption].
Qed.
Lemma child_value_det m v1 v2 : child_value m v1 -> child_value m v2 -> v1 = v2.
Proof.
  intros [a vs s t A1 B1 C1 D1 E1|t s u A1 B1 C1 D1 E1] [a' vs' s' t' A2 B2 C2 D2 E2|t' s' u' A2 B2 C2 D2 E2].
  - pose proof (attrs_called_det _ _ _ _ A1 A2) as X. injection X as -> ->. eapply trimmed_det; eassumption.
  - exfalso. apply C1. eapply trimmed_empty; [exact B1|]. eapply A2; eassumption.
  - exfalso. apply C2. eapply trimmed_empty; [exact B2|]. eapply A1; eassumption.
  - pose proof (element_text_det _ _ _ B1 B2) as ->. pose proof (trimmed_det _ _ _ C1 C2) as ->.
    eapply squeezed_det; eassumption.
Qed.
Lemma supplied_det n k v1 v2 : supplied n k v1 -> supplied n k v2 -> v1 = v2.
Proof.
  intros (r1 & a1 & m1 & c1 & -> & A1 & B1 & C1 & D1) (r2 & a2 & m2 & c2 & -> & A2 & B2 & C2 & D2).
  pose proof (attrs_called_det _ _ _ _ A1 A2) as ->. pose proof (elements_called_det _ _ _ _ C1 C2) as ->.
  f_equal.
  - clear - B1 B2. revert a2 B2. induction B1; intros a2 B2; inversion B2; subst; [reflexivity|].
    f_equal; [eapply trimmed_det; eassumption|auto].
  - clear - D1 D2. revert c2 D2. induction D1; intros c2 D2; inversion D2; subst; [reflexivity|].
    f_equal; [eapply child_value_det; eassumption|auto].
Qed.
