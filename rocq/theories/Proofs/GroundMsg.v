(** Conditions of messages and interfaces refer to existing fields. *)
From Verif.Model Require Import Base Common Xml Units Field FieldCommon IntField EnumField SetField FloatField OptCond Composite Message Frame Protocol.
From Verif.Spec Require Import Texts Ints Versions IntSpec EnumSpec XmlSpec FieldSpec CondSpec RefSpec ProtocolSpec.
From Verif.Proofs Require Import BaseFacts CommonFacts CondFacts XmlFacts IntFacts IntInv FieldInv FieldFacts OwnFacts ProtocolFacts RefFacts PlatFacts GroundFacts.
Local Open Scope Z_scope.
Local Open Scope list_scope.

(** ** more siblings *)
Lemma among_mono ms ms' text g t : incl ms ms' -> among ms text g t -> among ms' text g t.
Proof.
  intros I H. induction H.
  - eapply am_named; eauto.
  - apply am_size; auto.
  - apply am_presence; auto.
Qed.
Lemma operand_mono e ms ms' o g t : incl ms ms' -> operand_is e ms o g t -> operand_is e ms' o g t.
Proof. intros I (text & [[E H]|[E H]]); exists text; [left|right]; split; auto. eapply among_mono; eassumption. Qed.
Lemma grounded_mono e ms ms' c : incl ms ms' -> grounded e ms c -> grounded e ms' c.
Proof.
  intros I. induction c as [l op r|b cs IH] using cond_ind'; intros H; inversion H; subst.
  - eapply gr_bit. eapply operand_mono; eassumption.
  - eapply gr_presence; [eapply operand_mono; eassumption|assumption].
  - eapply gr_size; [eapply operand_mono; eassumption|assumption..].
  - eapply gr_fields; [eapply operand_mono; eassumption..|assumption].
  - eapply gr_value; [eapply operand_mono; eassumption|assumption..].
  - apply gr_list. rewrite Forall_forall in *. intros c Hc. apply IH; auto.
Qed.

(** ** conditions of messages *)
(** [o]: nothing new ([o = o0]), or a condition verified against [fs] *)
Definition known (e : env) (fs : list field) (o o0 : option cond) : Prop :=
  o = o0 \/ exists d, o = Some d /\ well_formed_cond d /\ cond_verify e fs d = Ok tt.
Lemma known_trans e fs a b c : known e fs b c -> known e fs a b -> known e fs a c.
Proof. intros H [-> | H']; [exact H|right; exact H']. Qed.
Definition msg_wf (m : message) : Prop := opt_wf (m_construct m) /\ opt_wf (m_readCond m) /\ opt_wf (m_validCond m).
Lemma copy_cond_known me p k sel cur o : (forall s m, me_msg me s = Some m -> opt_wf (sel m)) ->
  message_copy_cond me p k sel cur = Ok o -> known (me_env me) [] o cur.
Proof.
  unfold message_copy_cond. intros W H. apply bind_Ok in H as (u & _ & H). destruct (find_prop p k); [|injection H as <-; left; reflexivity].
  destruct (negb _); [injection H as <-; left; reflexivity|]. apply bind_Ok in H as (m & Hm & H). apply of_opt_Ok in Hm.
  apply bind_Ok in H as (c & Hc & H). apply of_opt_Ok in Hc. apply bind_Ok in H as ([] & V & H). injection H as <-. right. exists c.
  split; [reflexivity|]. split; [eapply W; eassumption|exact V].
Qed.
Lemma copy_valid_known me p fs cur o : (forall s m, me_msg me s = Some m -> opt_wf (m_validCond m)) ->
  (forall s g, e_find (me_env me) s = Some g -> conds_ok g) ->
  message_copy_valid_cond me p fs cur = Ok o -> known (me_env me) fs o cur.
Proof.
  unfold message_copy_valid_cond. intros W F H. apply bind_Ok in H as (u & _ & H).
  destruct (find_prop p (L "copyValidCondFrom")) as [v|]; [|injection H as <-; left; reflexivity].
  destruct (negb _); [injection H as <-; left; reflexivity|]. apply bind_Ok in H as (src & Hs & H).
  apply bind_Ok in H as (c & Hc & H). apply of_opt_Ok in Hc. subst src. apply bind_Ok in H as ([] & V & H). injection H as <-. right. exists c.
  split; [reflexivity|]. split; [|exact V]. destruct (me_msg me v) eqn:M; [injection Hs as Hs; eapply W; eassumption|].
  apply bind_Ok in Hs as (f & Hf & Hs). apply of_opt_Ok in Hf. destruct (F _ _ Hf) as [Wf _]. destruct f; try discriminate. injection Hs as Hs. apply Wf. exact Hs.
Qed.
Lemma single_known e p k fs cur o : single_cond e p k fs cur = Ok o -> known e fs o cur.
Proof.
  unfold single_cond. intros H. apply bind_Ok in H as (u & _ & H). destruct (find_prop p k); [|injection H as <-; left; reflexivity].
  destruct (negb _); [injection H as <-; left; reflexivity|]. apply bind_Ok in H as (c & Hc & H). apply bind_Ok in H as ([] & V & H). injection H as <-.
  right. exists c. split; [reflexivity|]. split; [eapply cond_expr_wf; exact Hc|exact V].
Qed.
Lemma multi_known e p n k fs cur o : multi_cond e p n k fs cur = Ok o -> known e fs o cur.
Proof.
  unfold multi_cond. intros H. destruct (parseGetChildrenOf n [k] true) as [|m more]; [injection H as <-; left; reflexivity|].
  destruct (negb _); [injection H as <-; left; reflexivity|]. apply bind_Ok in H as (u & _ & H).
  destruct (parseGetChildrenOf m [L "and"; L "or"] false) as [|d0 [|]]; try discriminate.
  apply bind_Ok in H as (u0 & _ & H). apply bind_Ok in H as (c & Hc & H). apply bind_Ok in H as ([] & V & H). injection H as <-.
  right. exists c. split; [reflexivity|]. split; [eapply cond_list_wf; exact Hc|exact V].
Qed.
Lemma as_known e p k from to o : cond_as e p k from to = Ok o -> o = to \/ o = from.
Proof.
  unfold cond_as. intros H. apply bind_Ok in H as (u & _ & H). destruct (find_prop p k); [|injection H as <-; auto].
  destruct (negb _); [injection H as <-; auto|]. apply bind_Ok in H as (b & _ & H). destruct (negb b); [injection H as <-; auto|].
  destruct from, to; try discriminate. injection H as <-. auto.
Qed.
Lemma construct_shape c : construct_ok c = true -> constructible c.
Proof.
  induction c as [l op r|b cs IH] using cond_ind'; cbn; intros H.
  - apply cs_equal. apply orb_prop in H as [H|H]; [left; destruct l; [reflexivity|discriminate]|right; apply str_eqb_eq in H; exact H].
  - apply andb_prop in H as [H F]. apply andb_prop in H as [-> N]. apply cs_and; [destruct cs; discriminate|].
    rewrite Forall_forall in *. intros c Hc. apply IH; [exact Hc|]. rewrite forallb_forall in F. apply F, Hc.
Qed.
Lemma message_conds_spec me p n fs m0 con rc vc : (forall s m, me_msg me s = Some m -> msg_wf m) ->
  (forall s g, e_find (me_env me) s = Some g -> conds_ok g) ->
  message_conds me p n fs m0 = Ok (con, rc, vc) ->
  known (me_env me) [] con (m_construct m0) /\
  (known (me_env me) [] rc (m_readCond m0) \/ rc = con) /\ (known (me_env me) fs vc (m_validCond m0) \/ vc = con) /\
  (forall c, con = Some c -> constructible c).
Proof.
  intros W F H. unfold message_conds in H.
  apply bind_Ok in H as (c1 & C1 & H). apply bind_Ok in H as (r1 & R1 & H). apply bind_Ok in H as (v1 & V1 & H).
  apply bind_Ok in H as (c2 & C2 & H). apply bind_Ok in H as (u1 & _ & H). apply bind_Ok in H as (c3 & C3 & H). apply bind_Ok in H as (u2 & K & H).
  apply bind_Ok in H as (r2 & R2 & H). apply bind_Ok in H as (r3 & R3 & H). apply bind_Ok in H as (v2 & V2 & H). apply bind_Ok in H as (v3 & V3 & H).
  apply bind_Ok in H as (r4 & R4 & H). apply bind_Ok in H as (v4 & V4 & H). injection H as <- <- <-.
  apply copy_cond_known in C1; [|intros s m X; apply (W _ _ X)]. apply copy_cond_known in R1; [|intros s m X; apply (W _ _ X)].
  apply copy_valid_known in V1; [|intros s m X; apply (W _ _ X)|exact F].
  apply single_known in C2, R2, V2. apply multi_known in C3, R3, V3. apply as_known in R4, V4.
  split; [eapply known_trans; [|exact C3]; eapply known_trans; eassumption|]. split; [|split].
  - destruct R4 as [-> | ->]; [left|right; reflexivity]. eapply known_trans; [|exact R3]; eapply known_trans; eassumption.
  - destruct V4 as [-> | ->]; [left|right; reflexivity]. eapply known_trans; [|exact V3]; eapply known_trans; eassumption.
  - intros c ->. cbn in K. apply guard_Ok in K. apply construct_shape, K.
Qed.
Lemma known_wf e fs o o0 : known e fs o o0 -> opt_wf o0 -> opt_wf o.
Proof. intros [-> | (d & -> & W & _)] H; [exact H|]. intros c [= <-]. exact W. Qed.
Lemma env_conds e : env_ok e -> forall s g, e_find e s = Some g -> conds_ok g.
Proof. intros [_ F] s g X. apply all_here, accepted_conds, (F _ _ X). Qed.
Lemma accepted_msg_wf m : accepted_message m -> msg_wf m.
Proof.
  induction 1 as [me n m He Hi Hm IH H]. apply message_parse_steps in H as [st _].
  pose proof (message_conds_spec _ _ _ _ _ _ _ _ IH (env_conds _ He) (ms_conds _ _ _ st)) as (A & B & C & _).
  assert (W0 : msg_wf (ms_m0 _ _ _ st)).
  { pose proof (ms_reuse _ _ _ st) as R. apply message_reuse_inv in R as [-> | (v & k & _ & Hk & _ & _ & _ & _ & E1 & E2 & E3)].
    - repeat split; intros c; discriminate.
    - unfold msg_wf. rewrite E1, E2, E3. apply (IH _ _ Hk). }
  destruct W0 as (W1 & W2 & W3). apply known_wf in A; [|exact W1]. split; [exact A|]. split.
  - destruct B as [B| ->]; [eapply known_wf; eassumption|exact A].
  - destruct C as [C| ->]; [eapply known_wf; eassumption|exact A].
Qed.
Lemma known_grounded e fs o : known e fs o None -> forall c, o = Some c -> grounded e fs c.
Proof. intros [-> | (d & -> & W & V)] c; [discriminate|]. intros [= <-]. apply verify_grounded; [apply wf_signed, W|exact V]. Qed.

Lemma message_conds_grounded me n m : menv_ok me -> message_parse me n = Ok m -> supplied n (T "reuse") [] ->
  (forall c, m_construct m = Some c -> grounded (me_env me) [] c) /\
  (forall c, m_readCond m = Some c -> grounded (me_env me) [] c) /\
  (forall c, m_validCond m = Some c -> grounded (me_env me) (m_fields m) c).
Proof.
  intros (He & Hi & Hm & _) H S. apply message_parse_steps in H as [st _].
  assert (W : forall s k, me_msg me s = Some k -> msg_wf k) by (intros s k X; apply accepted_msg_wf, (Hm _ _ X)).
  pose proof (message_conds_spec _ _ _ _ _ _ _ _ W (env_conds _ He) (ms_conds _ _ _ st)) as (A & B & C & _).
  rewrite (not_reused _ _ _ st S) in A, B, C. cbn in A, B, C.
  pose proof (known_grounded _ _ _ A) as G. split; [exact G|]. split.
  - intros c E. destruct B as [B|B]; [eapply known_grounded; eassumption|]. apply G. congruence.
  - intros c E. destruct C as [C|C]; [eapply known_grounded; eassumption|]. eapply grounded_mono; [|apply G; congruence]. intros x [].
Qed.
Lemma message_constructible me n m : menv_ok me -> message_parse me n = Ok m -> forall c, m_construct m = Some c -> constructible c.
Proof.
  intros (He & Hi & Hm & _) H. apply message_parse_steps in H as [st _].
  assert (W : forall s k, me_msg me s = Some k -> msg_wf k) by (intros s k X; apply accepted_msg_wf, (Hm _ _ X)).
  apply (message_conds_spec _ _ _ _ _ _ _ _ W (env_conds _ He) (ms_conds _ _ _ st)).
Qed.

(** ** fields of messages and interfaces *)
Lemma add_fields_sound e x ns fs fs' : env_ok e -> add_fields e x ns fs = Ok fs' -> sound_members e fs -> sound_members e fs'.
Proof.
  intros [Ne Fe] H. apply (add_sound e (parse_field e x) ns); [|exact H]. intros m f R.
  assert (A : accepted f) by (econstructor; eassumption). apply accepted_conds, all_here in A as [W _]. exact W.
Qed.
Lemma fields_nodes_below n ns : fields_nodes n = Ok (Some ns) -> forall m, In m ns -> below m n.
Proof.
  unfold fields_nodes. destruct (parseGetChildrenNamed n (L "fields")) as [|a [|]] eqn:Ea;
    destruct (parseGetChildrenOf n all_types false) as [|d ds] eqn:Ed; intros H m Hm; try discriminate; inv_ok.
  - left. apply (children_of_in n all_types false). rewrite Ed. exact Hm.
  - right. exists a. split; [|apply (children_of_in a [] false); exact Hm].
    apply (children_of_in n [L "fields"] false). unfold parseGetChildrenNamed in Ea. rewrite Ea. left. reflexivity.
Qed.
Lemma add_fields_own e x ns fs : add_fields e x ns [] = Ok fs -> forall f, In f fs -> exists m, In m ns /\ parse_field e x m = Ok f.
Proof.
  unfold add_fields. intros H. revert H. apply (foldM_inv_In _ (fun l => forall f, In f l -> exists m, In m ns /\ parse_field e x m = Ok f)); [|intros f []].
  intros a b a' Hb Ha X f Hf. apply bind_Ok in X as (f' & Hp & X). apply bind_Ok in X as (u & _ & X). injection X as <-.
  apply in_app_or in Hf as [Hf|[<-|[]]]; [auto|]. exists b. auto.
Qed.
Lemma message_no_copy me n m (st : message_steps me n m) : supplied n (T "reuse") [] -> supplied n (T "copyFieldsFrom") [] ->
  (ms_fs2 _ _ _ st) = [].
Proof.
  intros S1 S2. pose proof (ms_copy _ _ _ st) as C. rewrite (not_reused _ _ _ st S1) in C.
  assert (V : values_of (ms_p _ _ _ st) (L "copyFieldsFrom") = []).
  { eapply supplied_det; [|exact S2]. apply message_supplied; [apply mem_str_In; reflexivity|discriminate|apply mem_str_nIn; reflexivity]. }
  unfold message_copy in C. apply bind_Ok in C as (u & _ & C). rewrite find_values, V in C. cbn [hd_error] in C. injection C as C1 C2.
  pose proof (ms_replace _ _ _ st) as R. rewrite <- C1 in R. unfold message_replace in R.
  destruct (parseGetChildrenNamed n (L "replace")) as [|r [|]]; [injection R as <-; reflexivity| |discriminate].
  destruct (negb _); [injection R as <-; reflexivity|]. destruct (parseGetChildrenOf r all_types false) as [|c [|]]; try discriminate.
  apply bind_Ok in R as (f & _ & R). apply bind_Ok in R as (u' & _ & R). discriminate R.
Qed.
Lemma message_own_fields me n m : message_parse me n = Ok m -> supplied n (T "reuse") [] -> supplied n (T "copyFieldsFrom") [] ->
  m_fields m = [] \/ exists ns, fields_nodes n = Ok (Some ns) /\ add_fields (me_env me) (mkCtx PMessage (m_since m) (m_deprecated m)) ns [] = Ok (m_fields m).
Proof.
  intros H S1 S2. apply message_parse_steps in H as [st _]. pose proof (ms_fields _ _ _ st) as F. rewrite (message_no_copy _ _ _ st S1 S2) in F.
  unfold message_fields in F. apply bind_Ok in F as ([ns|] & Hn & F); [|injection F as <-; auto].
  apply bind_Ok in F as (fs & Ha & F). apply bind_Ok in F as (u & _ & F). apply bind_Ok in F as (u' & _ & F). injection F as <-. right. exists ns. auto.
Qed.
Lemma fields_all_sound e x n ns fs : env_ok e -> fields_nodes n = Ok (Some ns) -> add_fields e x ns [] = Ok fs -> without_reuse n ->
  sound_members e fs /\ forall f g, In f fs -> inside g f -> sound_field e g.
Proof.
  intros He Hn Ha W. split; [eapply add_fields_sound; [exact He|exact Ha|apply sound_nil]|].
  intros f g Hf Hg. destruct (add_fields_own _ _ _ _ Ha _ Hf) as (m & Hm & R). destruct He as [Ne Fe].
  eapply own_sound; [exact Ne|exact Fe| |exact R|exact Hg]. eapply without_reuse_below; [exact W|]. eapply fields_nodes_below; eassumption.
Qed.
Lemma without_reuse_supplied n vs : without_reuse n -> supplied n (T "reuse") vs -> vs = [].
Proof.
  intros W S. destruct S as (raw & as_ & ms & cs & E & A & B & C & D). inversion W as [n' W1 W2 W3]; subst n'.
  assert (raw = []). { clear - A W1. induction A as [|v l vs A IH|k' v l vs N A IH]; [reflexivity| |].
    - exfalso. eapply W1; [left; reflexivity|reflexivity].
    - apply IH. intros. eapply W1. right; eassumption. }
  assert (ms = []). { clear - C W2. induction C as [|a ch l ms C IH|m l ms N C IH]; [reflexivity| |].
    - exfalso. eapply W2; [left; reflexivity|reflexivity].
    - apply IH. intros. eapply W2. right; assumption. }
  subst. inversion B; inversion D; subst. reflexivity.
Qed.
Lemma iface_own_fields me n i : iface_parse me n = Ok i -> without_reuse n -> supplied n (T "copyFieldsFrom") [] ->
  if_fields i = [] \/ exists ns, fields_nodes n = Ok (Some ns) /\ add_fields (me_env me) iface_ctx ns [] = Ok (if_fields i).
Proof.
  intros H W S. unfold iface_parse in H. apply bind_Ok in H as (p & Hp & H).
  assert (V1 : values_of p (L "reuse") = []).
  { eapply without_reuse_supplied; [exact W|]. eapply element_props_supplied; [exact Hp|discriminate|apply mem_str_In; reflexivity]. }
  assert (V2 : values_of p (L "copyFieldsFrom") = []).
  { eapply supplied_det; [|exact S]. eapply element_props_supplied; [exact Hp|discriminate|apply mem_str_In; reflexivity]. }
  apply bind_Ok in H as (i0 & Hi & H). unfold iface_reuse in Hi. apply bind_Ok in Hi as (u & _ & Hi). rewrite find_values, V1 in Hi. cbn [hd_error] in Hi. injection Hi as <-.
  apply bind_Ok in H as (name & _ & H). apply bind_Ok in H as (u1 & _ & H). apply bind_Ok in H as (descr & _ & H). apply bind_Ok in H as ([fs src] & Hc & H).
  unfold iface_copy in Hc. apply bind_Ok in Hc as (u2 & _ & Hc). rewrite find_values, V2 in Hc. cbn [hd_error if_fields] in Hc. injection Hc as <- <-.
  apply bind_Ok in H as (ns & Hn & H). apply bind_Ok in H as (fs & Hf & H). apply bind_Ok in H as (al & _ & H). apply bind_Ok in H as (al' & _ & H). injection H as <-. cbn [if_fields].
  destruct ns as [ns|]; [|injection Hf as <-; auto]. apply bind_Ok in Hf as (fs' & Ha & Hf). apply bind_Ok in Hf as (u3 & _ & Hf). injection Hf as <-. right. exists ns. auto.
Qed.

(** ** interfaces of a schema *)
Lemma all_ifaces_in : forall n i, In i (ns_all_ifaces n) ->
  In i (ns_ifaces_list n) \/ exists path m, namespace_at (ns_subs n) path m /\ In i (ns_ifaces_list m).
Proof.
  fix IH 1. intros [nm dn ds subs fs ms ifs frs] i H. cbn [ns_all_ifaces] in H. apply in_app_or in H as [H|H]; [|left; apply in_map_iff in H as ([k' i'] & <- & H); apply by_name_In; exists k'; exact H].
  right. cbn [ns_subs]. induction subs as [|[k s] subs IHs]; [destruct H|]. apply in_app_or in H as [H|H].
  - destruct (IH s i H) as [A|(path & m & A & B)].
    + exists [k], s. split; [apply na_here; left; reflexivity|exact A].
    + exists (k :: path), m. split; [eapply na_sub; [left; reflexivity|exact A]|exact B].
  - destruct (IHs H) as (path & m & A & B). exists path, m. split; [|exact B]. inversion A; subst; [apply na_here; right; assumption|eapply na_sub; [right; eassumption|assumption]].
Qed.
Lemma iface_operand_at s text g t : in_interfaces (env_of s) text g t ->
  exists path i, iface_at (cur_schema s) path i /\ among (if_fields i) text g t.
Proof.
  intros (l & r & H & I1 & <- & T). cbn [env_of e_iface] in H. unfold iface_refs in H.
  assert (K : Forall (fun r => exists i, In i (flat_map (fun n => ns_all_ifaces (snd n)) (sc_ns (cur_schema s))) /\ sibling_ref (if_fields i) text = Ok (Some r)) l).
  { revert H. apply (foldM_inv_In _ (Forall _)); [|constructor]. intros a b a' Hb Ha X. apply bind_Ok in X as (o & Ho & X). injection X as <-.
    destruct o as [r'|]; [|exact Ha]. apply Forall_app. split; [exact Ha|]. constructor; [|constructor]. exists b. auto. }
  rewrite Forall_forall in K. destruct (K _ I1) as (i & Hi & Hs). apply in_flat_map in Hi as ([k n] & Hn & Hi). cbn [snd] in Hi.
  apply sibling_among in Hs.
  assert (E : target_of r = t) by (unfold target_of; destruct (ri_type r); auto). rewrite E in Hs.
  destruct (all_ifaces_in _ _ Hi) as [A|(path & m & A & B)].
  - exists [k], i. split; [|exact Hs]. exists n. split; [apply na_here; exact Hn|exact A].
  - exists (k :: path), i. split; [|exact Hs]. exists m. split; [eapply na_sub; eassumption|exact B].
Qed.
