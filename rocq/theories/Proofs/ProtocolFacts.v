(** Everything stored in a protocol object was accepted. *)
From Coq Require Import Sorting.Sorted Permutation.
From Verif.Model Require Import Base Common Xml Units Field FieldCommon IntField EnumField SetField FloatField OptCond Composite Message Frame Protocol.
From Verif.Spec Require Import Texts Ints IntSpec EnumSpec FieldSpec ProtocolSpec.
From Verif.Proofs Require Import BaseFacts CommonFacts IntFacts RangeFacts IntInv EnumInv CondFacts FieldInv FieldFacts LengthFacts MapFacts.

(** ** Copies of accepted fields *)
Lemma derived_all (P : field -> Prop) : (forall f, all P f -> P (clone f)) -> (forall v f, all P f -> P (bump_since v f)) ->
  (forall f, accepted f -> all P f) -> forall f, derived f -> all P f.
Proof.
  intros Pc Pb Pa f. induction 1; [auto|eapply all_parts; eassumption|apply all_clone; auto|apply all_bump; auto].
Qed.
Lemma derived_names f : derived f -> all valid_name f.
Proof.
  apply derived_all; [| |exact accepted_names].
  - intros g H. apply all_here in H. unfold valid_name in *. rewrite clone_name. exact H.
  - intros v g H. apply all_here in H. unfold valid_name in *. rewrite bump_name. exact H.
Qed.
Lemma derived_leaves f : derived f -> all leaf_reachable f.
Proof.
  apply derived_all; [| |exact accepted_leaves].
  - intros g H. apply all_here in H. destruct g; exact H.
  - intros v g H. apply all_here in H. destruct g; exact H.
Qed.
Lemma derived_clones l : Forall derived l -> Forall derived (map clone l).
Proof. rewrite !Forall_forall. intros H g Hg. apply in_map_iff in Hg as (h & <- & Hh). apply dr_clone. auto. Qed.
Lemma derived_bumps v l : Forall derived l -> Forall derived (map (bump_since v) l).
Proof. rewrite !Forall_forall. intros H g Hg. apply in_map_iff in Hg as (h & <- & Hh). apply dr_bump. auto. Qed.
Lemma env_parse e x n f : env_ok e -> parse_field e x n = Ok f -> accepted f.
Proof. intros [H1 H2] H. eapply acc; eauto. Qed.
Lemma add_fields_derived (Q : field -> Prop) e x ns fs fs' : (forall y n f, parse_field e y n = Ok f -> Q f) -> Forall Q fs ->
  add_fields e x ns fs = Ok fs' -> Forall Q fs'.
Proof.
  intros HQ H. unfold add_fields. apply (foldM_inv _ (Forall Q)); [|exact H].
  intros a b a' Ha E. inv_ok. apply Forall_app. split; [exact Ha|]. constructor; [|constructor]. eapply HQ; eassumption.
Qed.

Lemma copied_derived e v ms als : env_ok e -> copied_bundle e v = Ok (ms, als) -> Forall derived ms.
Proof.
  intros [_ He] H. unfold copied_bundle in H. inv_ok. destruct x0; try discriminate. injection H as <- <-.
  apply derived_clones. apply Forall_forall. intros g Hg. eapply dr_part; [apply dr_accepted; eapply He; eassumption|exact Hg].
Qed.
Lemma replace_first_Forall (Q : field -> Prop) fs f fs' : replace_first fs f = Some fs' -> Forall Q fs -> Q f -> Forall Q fs'.
Proof. intros H H1 H2. exact (replace_first_parts Q fs f fs' H H1 H2). Qed.

Lemma iface_fields_derived i : accepted_iface i -> Forall derived (if_fields i).
Proof.
  induction 1 as [me n i He Hi IH H]. unfold iface_parse in H.
  apply bind_Ok in H as (p & Hp & H). apply bind_Ok in H as (i0 & Hr & H). apply bind_Ok in H as (name & Hn & H).
  apply bind_Ok in H as ([] & _ & H). apply bind_Ok in H as (descr & _ & H). apply bind_Ok in H as ([fs src] & Hc & H).
  apply bind_Ok in H as (ns & Hns & H). apply bind_Ok in H as (fs' & Hf & H). apply bind_Ok in H as (als & _ & H).
  apply bind_Ok in H as (als' & _ & H). injection H as <-. cbn [if_fields].
  assert (H0 : Forall derived (if_fields i0)).
  { unfold iface_reuse in Hr. apply bind_Ok in Hr as (u & _ & Hr). destruct (find_prop p (L "reuse")) as [v|]; [|injection Hr as <-; constructor].
    destruct (negb _); [injection Hr as <-; constructor|]. apply bind_Ok in Hr as (j & Hj & Hr). apply of_opt_Ok in Hj.
    apply bind_Ok in Hr as ([als0 cp] & _ & Hr). injection Hr as <-. cbn. apply derived_clones. eauto. }
  assert (H1 : Forall derived fs).
  { unfold iface_copy in Hc. apply bind_Ok in Hc as (u & _ & Hc). destruct (find_prop p (L "copyFieldsFrom")) as [v|]; [|injection Hc as <- <-; exact H0].
    apply bind_Ok in Hc as (u' & _ & Hc). destruct (me_iface me v) as [j|] eqn:E.
    - injection Hc as <- <-. apply derived_clones. eauto.
    - apply bind_Ok in Hc as ([ms als0] & Hb & Hc). injection Hc as <- <-. eapply copied_derived; eassumption. }
  destruct ns as [ns|]; [|injection Hf as <-; exact H1].
  apply bind_Ok in Hf as (fs2 & Ha & Hf). apply bind_Ok in Hf as (u & _ & Hf). injection Hf as <-.
  eapply add_fields_derived; [|exact H1|exact Ha]. intros y m f E. apply dr_accepted. eapply env_parse; eassumption.
Qed.

(** the steps of message_parse *)
Record message_steps (me : menv) (n : node) (m : message) := {
  ms_p : props; ms_m0 : message; ms_fs1 : list field; ms_src : option (list alias); ms_fs2 : list field;
  ms_props : exists p, parseChildrenAsProps n message_common_props true (parseNodeProps n) = Ok p /\
     parseChildrenAsProps n message_extra_props false p = Ok ms_p;
  ms_reuse : message_reuse me ms_p = Ok ms_m0;
  ms_name : string_prop (me_env me) ms_p (L "name") (is_nil (m_name ms_m0)) false (m_name ms_m0) = Ok (m_name m);
  ms_valid : parseIsValidName (m_name m) = true;
  ms_id : message_id (me_env me) ms_p = Ok (m_id m);
  ms_order : message_order ms_p (m_order ms_m0) = Ok (m_order m);
  ms_versions : message_versions (me_env me) ms_p = Ok (m_since m, m_deprecated m, m_removed m);
  ms_platforms : message_platforms me ms_p (m_platforms ms_m0) = Ok (m_platforms m);
  ms_vml : message_validate_min_length (me_env me) ms_p (m_validateMinLength ms_m0) = Ok (m_validateMinLength m);
  ms_copy : message_copy me ms_p (m_since m) (m_fields ms_m0) = Ok (ms_fs1, ms_src);
  ms_replace : message_replace (me_env me) (mkCtx PMessage (m_since m) (m_deprecated m)) n ms_fs1 = Ok ms_fs2;
  ms_fields : message_fields (me_env me) (mkCtx PMessage (m_since m) (m_deprecated m)) n (m_validateMinLength m) ms_fs2 = Ok (m_fields m);
  ms_conds : message_conds me ms_p n (m_fields m) ms_m0 = Ok (m_construct m, m_readCond m, m_validCond m);
  ms_aliases : exists als, copy_aliases (me_env me) ms_p true (m_fields m) ms_src (m_aliases ms_m0) = Ok als /\
     add_aliases (me_env me) n (m_fields m) als = Ok (m_aliases m) }.
Lemma message_parse_steps me n m : message_parse me n = Ok m -> exists st : message_steps me n m, True.
Proof.
  intros H. unfold message_parse in H.
  apply bind_Ok in H as (p0 & Hp0 & H). apply bind_Ok in H as (p & Hp & H). apply bind_Ok in H as (m0 & Hr & H).
  apply bind_Ok in H as (name & Hn & H). apply bind_Ok in H as (u & Hv & H). apply guard_Ok in Hv.
  apply bind_Ok in H as (dn & _ & H). apply bind_Ok in H as (ds & _ & H). apply bind_Ok in H as (id & Hid & H).
  apply bind_Ok in H as (order & Ho & H). apply bind_Ok in H as ([[since depr] removed] & Hver & H).
  apply bind_Ok in H as (plats & Hpl & H). apply bind_Ok in H as (cu & _ & H). apply bind_Ok in H as (sn & _ & H).
  apply bind_Ok in H as (vml & Hvml & H). apply bind_Ok in H as (foi & _ & H).
  apply bind_Ok in H as ([fs1 src] & Hc & H). apply bind_Ok in H as (fs2 & Hrep & H). apply bind_Ok in H as (fs3 & Hf & H).
  apply bind_Ok in H as (als & Hal & H). apply bind_Ok in H as (als' & Hal' & H). apply bind_Ok in H as (ovr & _ & H).
  apply bind_Ok in H as (copy & _ & H). apply bind_Ok in H as ([[con rc] vc] & Hco & H). injection H as <-.
  unshelve eexists; [|exact I].
  econstructor; cbn [m_name m_id m_order m_since m_deprecated m_removed m_platforms m_validateMinLength m_fields m_construct m_readCond m_validCond m_aliases]; eauto.
Qed.
Lemma message_reuse_inv me p m0 : message_reuse me p = Ok m0 ->
  m0 = empty_message \/ exists v m, find_prop p (L "reuse") = Some v /\ me_msg me v = Some m /\
    m_fields m0 = map clone (m_fields m) /\ m_platforms m0 = m_platforms m /\ m_id m0 = m_id m /\ m_order m0 = m_order m /\
    m_construct m0 = m_construct m /\ m_readCond m0 = m_readCond m /\ m_validCond m0 = m_validCond m.
Proof.
  intros Hr. unfold message_reuse in Hr. apply bind_Ok in Hr as (u & _ & Hr). destruct (find_prop p (L "reuse")) as [v|]; [|injection Hr as <-; auto].
  destruct (negb _); [injection Hr as <-; auto|]. apply bind_Ok in Hr as (j & Hj & Hr). apply of_opt_Ok in Hj.
  apply bind_Ok in Hr as ([als0 cp] & _ & Hr). injection Hr as <-. right. exists v, j. cbn. auto 10.
Qed.
Lemma message_fields_derived m : accepted_message m -> Forall derived (m_fields m).
Proof.
  induction 1 as [me n m He Hi Hm IH H]. apply message_parse_steps in H as [[p m0 fs1 src fs2 _ Hr _ _ _ _ _ _ _ Hc Hrep Hf _ _] _].
  assert (H0 : Forall derived (m_fields m0)).
  { apply message_reuse_inv in Hr as [-> | (v & k & _ & Hk & E & _)]; [constructor|]. rewrite E. apply derived_clones. eauto. }
  assert (HP : forall y k f, parse_field (me_env me) y k = Ok f -> derived f) by (intros y k f E; apply dr_accepted; eapply env_parse; eassumption).
  assert (H1 : Forall derived fs1).
  { unfold message_copy in Hc. apply bind_Ok in Hc as (u & _ & Hc). destruct (find_prop p (L "copyFieldsFrom")) as [v|]; [|injection Hc as <- <-; exact H0].
    apply bind_Ok in Hc as (u' & _ & Hc). apply bind_Ok in Hc as ([gs als] & Hg & Hc). injection Hc as <- <-.
    apply derived_bumps. assert (G : Forall derived gs).
    { destruct (me_msg me v) as [k|] eqn:E; [injection Hg as <- <-; apply derived_clones; eauto|]. eapply copied_derived; eassumption. }
    rewrite Forall_forall in *. intros g X. apply filter_In in X. apply G, X. }
  assert (H2 : Forall derived fs2).
  { unfold message_replace in Hrep. destruct (parseGetChildrenNamed n (L "replace")) as [|r [|]]; [injection Hrep as <-; exact H1| |discriminate].
    destruct (negb _); [injection Hrep as <-; exact H1|]. destruct (parseGetChildrenOf r all_types false) as [|c [|]]; try discriminate.
    apply bind_Ok in Hrep as (f & Hp & Hrep). apply bind_Ok in Hrep as (u & _ & Hrep). apply of_opt_Ok in Hrep.
    eapply replace_first_Forall; eauto. }
  unfold message_fields in Hf. apply bind_Ok in Hf as ([ns|] & _ & Hf); [|injection Hf as <-; exact H2].
  apply bind_Ok in Hf as (fs3 & Ha & Hf). apply bind_Ok in Hf as (u & _ & Hf). apply bind_Ok in Hf as (u' & _ & Hf). injection Hf as <-.
  eapply add_fields_derived; eauto.
Qed.
Lemma iface_name_valid me n i : iface_parse me n = Ok i -> parseIsValidName (if_name i) = true.
Proof. intros H. unfold iface_parse in H. inv_all. assumption. Qed.
Lemma message_name_valid me n m : message_parse me n = Ok m -> parseIsValidName (m_name m) = true.
Proof. intros H. apply message_parse_steps in H as [st _]. apply (ms_valid _ _ _ st). Qed.
Lemma frame_name_valid me n f : frame_parse me n = Ok f -> parseIsValidName (fr_name f) = true.
Proof. intros H. unfold frame_parse in H. inv_all. assumption. Qed.

(** ** Values references lead to are 64 bit numbers *)
Definition num_ok (o : option (Z * bool)) : Prop := match o with Some (v, b) => is64 v /\ (b = true -> v < 0) | None => True end.
Lemma assoc_Forall {A} (Q : str * A -> Prop) k l v : Forall Q l -> assoc k l = Some v -> exists k', Q (k', v).
Proof.
  induction 1 as [|[k' w] l HQ _ IH]; cbn; [discriminate|]. destruct (str_eqb k' k); [intros [= ->]; eauto|]. auto.
Qed.
Lemma leaf_num frs f r : leaf_reachable f -> num_ok (num_leaf frs f r).
Proof.
  assert (B : forall a v, a && (v <? 0) = true -> v < 0) by (intros a v X; apply andb_true_iff in X as [_ X]; lia).
  assert (Z2 : forall b, is64 (Z.b2z b)) by (intros []; unfold is64, int_min, int_max; cbn; lia).
  destruct f; cbn [num_leaf leaf_reachable]; try (intros _; exact I).
  - intros H. apply int_reachable_inv in H. destruct (negb frs); [exact I|]. destruct (is_nil r).
    + split; [apply (inv_default _ H)|apply B].
    + destruct (assoc r (i_specials s)) eqn:E; [|exact I]. destruct (assoc_Forall _ _ _ _ (sps_64 _ _ (inv_sps _ H)) E) as [k X]. split; [exact X|apply B].
  - intros H. apply enum_reachable_inv in H. destruct (is_nil r).
    + destruct frs; [|exact I]. split; [apply (einv_default _ H)|apply B].
    + destruct (assoc r (en_values s)) eqn:E; [|exact I]. destruct (assoc_Forall _ _ _ _ (sps_64 _ _ (einv_vals _ H)) E) as [k X]. split; [exact X|apply B].
  - intros _. destruct (negb frs); [exact I|]. destruct (is_nil r); [split; [apply Z2|discriminate]|].
    destruct (assoc r (s_bits s)); [split; [apply Z2|discriminate]|exact I].
Qed.
Lemma resolve_num frs f : all leaf_reachable f -> forall r, num_ok (field_num frs f r).
Proof.
  unfold field_num. induction f as [f IH] using field_ind'. intros H r. rewrite Forall_forall in IH.
  assert (G : forall g, In g (parts f) -> forall r, num_ok (resolve frs (num_leaf frs) g r)) by (intros g Hg; apply IH; [exact Hg|eapply all_parts; eassumption]).
  clear IH. pose proof (all_here _ _ H) as L.
  assert (M : forall ms q t, (forall g, In g ms -> forall r, num_ok (resolve frs (num_leaf frs) g r)) ->
     num_ok ((fix go (ms : list field) : option (Z * bool) :=
           match ms with
           | [] => None
           | m :: ms' => if str_eqb (f_name m) q then resolve frs (num_leaf frs) m (rest_or_nil t) else go ms'
           end) ms)).
  { intros ms q t. induction ms as [|m ms IHm]; intros X; [exact I|]. destruct (str_eqb (f_name m) q); [apply X; left; reflexivity|].
    apply IHm. intros g Hg. apply X. right. exact Hg. }
  destruct f; cbn [resolve]; try (apply leaf_num; exact L).
  - destruct (is_nil r || negb frs); [exact I|]. destruct (first_seg r). apply M. exact G.
  - destruct (is_nil r || negb frs); [exact I|]. destruct (first_seg r). apply M. exact G.
  - destruct frs; [|exact I]. apply G. left. reflexivity.
  - destruct (is_nil r || negb frs || negb own); [exact I|]. destruct (first_seg r). destruct (str_eqb _ _); [|exact I]. apply G. left. reflexivity.
  - destruct (is_nil r || negb frs); [exact I|]. destruct (first_seg r). apply M. exact G.
Qed.

(** ** The invariant of namespaces, schemas and the protocol *)
Definition elems_ok {A} (name : A -> str) (Q : A -> Prop) (l : list (str * A)) : Prop :=
  sorted_map key_ltb l /\ forall k v, In (k, v) l -> k = name v /\ parseIsValidName k = true /\ Q v.
Inductive ns_ok : nspace -> Prop :=
| ns_ok_intro n : elems_ok f_name accepted (ns_fields n) -> elems_ok m_name accepted_message (ns_messages n) ->
    elems_ok if_name accepted_iface (ns_ifaces n) -> elems_ok fr_name accepted_frame (ns_frames n) ->
    sorted_map str_ltb (ns_subs n) ->
    (forall k s, In (k, s) (ns_subs n) -> k = ns_name s /\ parseIsValidName k = true) ->
    (forall k s, In (k, s) (ns_subs n) -> ns_ok s) -> ns_ok n.
Lemma elems_nil {A} name (Q : A -> Prop) : elems_ok name Q [].
Proof. split; [constructor|intros k v []]. Qed.
Lemma ns_ok_empty a b c : ns_ok (empty_ns a b c).
Proof. apply ns_ok_intro; cbn; [apply elems_nil..|apply SSorted_nil|intros k s []|intros k s []]. Qed.
Lemma elems_put {A} name (Q : A -> Prop) l v : elems_ok name Q l -> map_find key_ltb (name v) l = None ->
  parseIsValidName (name v) = true -> Q v -> elems_ok name Q (map_put key_ltb (name v) v l).
Proof.
  intros [S H] N V HQ. split; [apply kput_sorted; exact S|]. intros k w X.
  apply kput_new_In in X as [X|[= -> ->]]; auto.
Qed.

(** the namespaces of a schema: the global one has no name and no sub-namespaces *)
Record nss_ok (l : list (str * nspace)) : Prop := {
  nss_sorted : sorted_map str_ltb l;
  nss_names : forall k s, In (k, s) l -> k = ns_name s /\ (parseIsValidName k = true \/ k = [] /\ ns_subs s = []);
  nss_each : forall k s, In (k, s) l -> ns_ok s }.
Lemma nss_nil : nss_ok [].
Proof. constructor; [constructor|intros k s []..]. Qed.
Lemma subs_nss n : ns_ok n -> nss_ok (ns_subs n).
Proof.
  inversion 1; subst. constructor; auto. intros k s X. destruct (H5 _ _ X). auto.
Qed.
Lemma nss_put l k s : nss_ok l -> ns_ok s -> k = ns_name s -> parseIsValidName k = true \/ k = [] /\ ns_subs s = [] ->
  nss_ok (map_put str_ltb k s l).
Proof.
  intros [S N E] Hs Hk V. constructor; [apply sput_sorted; exact S|..]; intros k' s' X; apply sput_In in X as [X|[= -> ->]]; eauto.
Qed.
Lemma nss_find l k s : nss_ok l -> map_find str_ltb k l = Some s -> ns_ok s /\ k = ns_name s.
Proof. intros H X. apply sfind_In in X. split; [eapply nss_each; eauto|]. eapply nss_names; eauto. Qed.
Lemma nss_at l path n : nss_ok l -> ns_at path l = Some n -> ns_ok n.
Proof.
  revert l. induction path as [|x path IH]; intros l H X; [discriminate|]. cbn in X. destruct path as [|y path].
  - destruct (is_nil x); [discriminate|]. eapply nss_find; eassumption.
  - destruct (is_nil x); [discriminate|]. destruct (map_find str_ltb x l) as [m|] eqn:E; [|discriminate].
    eapply IH; [|exact X]. apply subs_nss. eapply nss_find; eassumption.
Qed.
Definition proto_ok (s : protocol) : Prop := Forall (fun sc => nss_ok (sc_ns sc)) (pr_schemas s).
Lemma proto_nth s i : proto_ok s -> nss_ok (sc_ns (nth i (pr_schemas s) no_schema)).
Proof.
  intros H. destruct (nth_in_or_default i (pr_schemas s) no_schema) as [X| ->]; [|apply nss_nil].
  unfold proto_ok in H. rewrite Forall_forall in H. apply H. exact X.
Qed.
Lemma from_path_ok s ref c n r : nss_ok (sc_ns s) -> ns_from_path s ref c = Some (n, r) -> ns_ok n.
Proof.
  intros H X. unfold ns_from_path in X. destruct (c && _); [discriminate|]. destruct (split_last ref) as [[a b]|].
  - destruct (ns_at _ _) as [m|] eqn:E; [|discriminate]. injection X as -> ->. eapply nss_at; eassumption.
  - destruct (map_find _ _ _) as [m|] eqn:E; [|discriminate]. injection X as -> ->. eapply nss_find; eassumption.
Qed.
Lemma find_global_ok {A} (find : nspace -> str -> option A) s ref c v : proto_ok s -> find_global find s ref c = Some v ->
  exists n k, ns_ok n /\ find n k = Some v.
Proof.
  intros H X. unfold find_global in X. destruct (external_ref s ref) as [[i rest]|]; [|discriminate].
  destruct (Nat.leb _ _); [|discriminate]. destruct (ns_from_path _ _ _) as [[n k]|] eqn:E; [|discriminate].
  apply from_path_ok in E; [|apply proto_nth; exact H]. eauto.
Qed.
Lemma elems_find {A} name (Q : A -> Prop) l k v : elems_ok name Q l -> map_find key_ltb k l = Some v -> Q v.
Proof. intros [_ H] X. apply kfind_In in X as (k' & X & _). apply (H _ _ X). Qed.
Lemma find_field_accepted s ref c f : proto_ok s -> find_field s ref c = Some f -> accepted f.
Proof. intros H X. apply find_global_ok in X as (n & k & N & X); [|exact H]. inversion N; subst. eapply elems_find; eassumption. Qed.
Lemma find_message_accepted s ref c f : proto_ok s -> find_message s ref c = Some f -> accepted_message f.
Proof. intros H X. apply find_global_ok in X as (n & k & N & X); [|exact H]. inversion N; subst. eapply elems_find; eassumption. Qed.
Lemma find_iface_accepted s ref c f : proto_ok s -> find_iface s ref c = Some f -> accepted_iface f.
Proof. intros H X. apply find_global_ok in X as (n & k & N & X); [|exact H]. inversion N; subst. eapply elems_find; eassumption. Qed.
Lemma ns_value_accepted {A} (leaf : field -> str -> option A) n : ns_ok n -> forall ref v, ns_value leaf n ref = Some v ->
  exists f r, accepted f /\ leaf f r = Some v.
Proof.
  induction 1 as [n Hf _ _ _ _ _ _ IH]. intros ref v. destruct n as [a b c subs fs ms is frs]. cbn [ns_value ns_fields ns_subs] in *.
  destruct (first_seg ref) as [first [r|]].
  - induction subs as [|[k s] subs IHs].
    + destruct (map_find key_ltb first fs) eqn:E; [|discriminate]. intros X. exists f, r. split; [eapply elems_find; eassumption|exact X].
    + destruct (str_eqb k first); [apply (IH k s); left; reflexivity|]. apply IHs. intros k' s' X. apply (IH k' s'). right. exact X.
  - destruct (map_find key_ltb ref fs) eqn:E; [|discriminate]. intros X. exists f, []. split; [eapply elems_find; eassumption|exact X].
Qed.
Lemma find_value_accepted {A} (leaf : field -> str -> option A) s ref v : proto_ok s -> find_value leaf s ref = Some v ->
  exists f r, accepted f /\ leaf f r = Some v.
Proof.
  intros H X. unfold find_value in X. destruct (negb _); [discriminate|]. destruct (external_ref s ref) as [[i rest]|]; [|discriminate].
  pose proof (proto_nth s i H) as N.
  assert (G : match map_find str_ltb [] (sc_ns (nth i (pr_schemas s) no_schema)) with Some n => ns_value leaf n rest | None => None end = Some v ->
     exists f r, accepted f /\ leaf f r = Some v).
  { destruct (map_find _ _ _) eqn:E; [|discriminate]. eapply nss_find in E as [E _]; [|exact N]. apply ns_value_accepted. exact E. }
  destruct (first_seg rest) as [first [r|]]; [|exact (G X)].
  destruct (map_find str_ltb first _) eqn:E; [|exact (G X)]. eapply nss_find in E as [E _]; [|exact N]. eapply ns_value_accepted; eassumption.
Qed.
Lemma proto_env_ok s : proto_ok s -> env_ok (env_of s).
Proof.
  intros H. split.
  - intros r v b X. cbn in X. apply find_value_accepted in X as (f & r' & A & X); [|exact H].
    pose proof (resolve_num ((sc_dsl (cur_schema s) =? 0) || (2 <=? sc_dsl (cur_schema s))) f (accepted_leaves f A) r') as Y.
    rewrite X in Y. exact Y.
  - intros r g X. cbn in X. eapply find_field_accepted; eassumption.
Qed.
Lemma proto_menv_ok s : proto_ok s -> menv_ok (menv_of s).
Proof.
  intros H. split; [apply proto_env_ok; exact H|]. cbn [menv_of me_iface me_msg me_ifaces].
  split; [intros r j X; eapply find_iface_accepted; eassumption|]. split; [intros r m X; eapply find_message_accepted; eassumption|].
  apply Forall_forall. intros i X. apply in_flat_map in X as ([k n] & Hn & X). apply in_map_iff in X as ([k' j] & <- & X).
  assert (N : ns_ok n) by (eapply nss_each; [apply (proto_nth s (pr_cur s) H)|exact Hn]). inversion N as [? _ _ I _ _ _ _]; subst. apply (proj2 I _ _ X).
Qed.

(** ** The invariant is kept *)
Definition keeps (ns ns' : nspace) : Prop := ns_ok ns' /\ ns_name ns' = ns_name ns /\ ns_subs ns' = ns_subs ns.
Lemma keeps_refl ns : ns_ok ns -> keeps ns ns.
Proof. unfold keeps. auto. Qed.
Lemma keeps_trans a b c : keeps a b -> keeps b c -> keeps a c.
Proof. unfold keeps. intros (A1 & A2 & A3) (B1 & B2 & B3). split; [exact B1|]. split; congruence. Qed.
Section Define.
Variable mk : nspace -> menv.
Lemma define_field_ok ns n ns' : menv_ok (mk ns) -> ns_ok ns -> define_field mk ns n = Ok ns' -> keeps ns ns'.
Proof.
  intros [He _] Hn H. unfold define_field in H. apply bind_Ok in H as (f & Hf & H). apply bind_Ok in H as (u & _ & H).
  destruct (ns_find_field ns (f_name f)) eqn:E; [discriminate|]. injection H as <-. inversion Hn; subst. unfold ns_find_field in E.
  destruct ns as [a b c s fs m i r]. unfold keeps. cbn in *. split; [|auto]. constructor; cbn; auto.
  pose proof (env_parse _ _ _ _ He Hf) as A. apply elems_put; auto. apply accepted_names in A. apply all_here in A. exact A.
Qed.
Lemma define_message_ok ns n ns' : menv_ok (mk ns) -> ns_ok ns -> define_message mk ns n = Ok ns' -> keeps ns ns'.
Proof.
  intros (He & Hi & Hm & _) Hn H. unfold define_message in H. apply bind_Ok in H as (f & Hf & H).
  destruct (ns_find_message ns (m_name f)) eqn:E; [discriminate|]. injection H as <-. inversion Hn; subst. unfold ns_find_message in E.
  destruct ns as [a b c s fs m i r]. unfold keeps. cbn in *. split; [|auto]. constructor; cbn; auto.
  apply elems_put; auto; [eapply message_name_valid; eassumption|]. eapply am; eassumption.
Qed.
Lemma define_iface_ok ns n ns' : menv_ok (mk ns) -> ns_ok ns -> define_iface mk ns n = Ok ns' -> keeps ns ns'.
Proof.
  intros (He & Hi & Hm & _) Hn H. unfold define_iface in H. apply bind_Ok in H as (f & Hf & H).
  destruct (ns_find_iface ns (if_name f)) eqn:E; [discriminate|]. injection H as <-. inversion Hn; subst. unfold ns_find_iface in E.
  destruct ns as [a b c s fs m i r]. unfold keeps. cbn in *. split; [|auto]. constructor; cbn; auto.
  apply elems_put; auto; [eapply iface_name_valid; eassumption|]. eapply ai; eassumption.
Qed.
Lemma define_frame_ok ns n ns' : menv_ok (mk ns) -> ns_ok ns -> define_frame mk ns n = Ok ns' -> keeps ns ns'.
Proof.
  intros He Hn H. unfold define_frame in H. apply bind_Ok in H as (f & Hf & H).
  destruct (ns_find_frame ns (fr_name f)) eqn:E; [discriminate|]. injection H as <-. inversion Hn; subst. unfold ns_find_frame in E.
  destruct ns as [a b c s fs m i r]. unfold keeps. cbn in *. split; [|auto]. constructor; cbn; auto.
  apply elems_put; auto; [eapply frame_name_valid; eassumption|]. exists (mk (mkNs a b c s fs m i r)), n. auto.
Qed.
Lemma foldM_keeps (def : nspace -> node -> res nspace) l ns ns' :
  (forall a b a', keeps ns a -> def a b = Ok a' -> keeps a a') -> ns_ok ns -> foldM def l ns = Ok ns' -> keeps ns ns'.
Proof.
  intros H Hn. apply (foldM_inv _ (keeps ns)); [|apply keeps_refl; exact Hn].
  intros a b a' Ha E. eapply keeps_trans; [exact Ha|]. eapply H; eassumption.
Qed.
End Define.
Lemma put_sub_ok name x ns : ns_ok ns -> ns_ok x -> ns_name x = name -> parseIsValidName name = true ->
  ns_ok (put_sub name x ns) /\ ns_name (put_sub name x ns) = ns_name ns.
Proof.
  intros Hn Hx E V. inversion Hn as [? ? ? ? ? S N O]; subst. destruct ns as [a b c s fs m i r]. cbn in *. split; [|reflexivity].
  constructor; cbn; auto; [apply sput_sorted; exact S|..]; intros k y X; apply sput_In in X as [X|[= -> ->]]; eauto.
Qed.
Lemma ns_start_ok found name dname descr : (forall s, found = Some s -> ns_ok s /\ name = ns_name s) ->
  ns_ok (ns_start found name dname descr) /\ ns_name (ns_start found name dname descr) = name.
Proof.
  intros H. destruct found as [s|]; cbn; [|split; [apply ns_ok_empty|reflexivity]]. destruct (H s eq_refl) as [O N].
  destruct (is_nil (ns_description s)); [|auto]. inversion O; subst. destruct s as [a b c s fs m i r]. cbn in *. split; [|reflexivity]. constructor; cbn; auto.
Qed.
Lemma ns_props_name e n a b c : ns_props e n = Ok (a, b, c) -> parseIsValidName a = true.
Proof. unfold ns_props. intros H. inv_all. assumption. Qed.
Definition mk_good (ns : nspace) (mk : nspace -> menv) : Prop := forall x, ns_ok x -> ns_name x = ns_name ns ->
  menv_ok (mk x).
(** with a fixed list of sub-namespaces *)
Definition mk_good_fixed (ns : nspace) (mk : nspace -> menv) : Prop := forall x, keeps ns x -> menv_ok (mk x).
Lemma plain_child_ok mk ns n ns' : str_eqb (n_name n) (L "ns") = false -> mk_good_fixed ns mk -> ns_ok ns ->
  ns_child mk ns n = Ok ns' -> keeps ns ns'.
Proof.
  intros E M Hn H.
  assert (M1 : menv_ok (mk ns)) by (apply M, keeps_refl, Hn).
  assert (D : forall name (def : nspace -> node -> res nspace), (forall a b a', keeps ns a -> def a b = Ok a' -> keeps a a') ->
    define_all name def ns n = Ok ns' -> keeps ns ns').
  { intros name def Hd. unfold define_all. apply foldM_keeps; [|exact Hn]. intros a b a' Ha X. apply bind_Ok in X as (u & _ & X). eapply Hd; eassumption. }
  assert (K : forall a, keeps ns a -> ns_ok a) by (intros a Ha; apply Ha).
  destruct n as [nm at_ cs|t|]; cbn [ns_child n_name] in H, E; [| discriminate..]. rewrite E in H.
  destruct (str_eqb nm (L "fields")). { revert H. apply foldM_keeps; [|exact Hn]. intros a b a' Ha X. eapply define_field_ok; eauto. }
  destruct (str_eqb nm (L "message")); [eapply define_message_ok; eassumption|].
  destruct (str_eqb nm (L "messages")). { revert H. apply D. intros a b a' Ha X. eapply define_message_ok; eauto. }
  destruct (str_eqb nm (L "frame")); [eapply define_frame_ok; eassumption|].
  destruct (str_eqb nm (L "frames")). { revert H. apply D. intros a b a' Ha X. eapply define_frame_ok; eauto. }
  destruct (str_eqb nm (L "interface")); [eapply define_iface_ok; eassumption|].
  destruct (str_eqb nm (L "interfaces")). { revert H. apply D. intros a b a' Ha X. eapply define_iface_ok; eauto. }
  discriminate.
Qed.
Lemma ns_child_ok n : forall mk ns ns', mk_good ns mk -> ns_ok ns -> ns_child mk ns n = Ok ns' -> ns_ok ns' /\ ns_name ns' = ns_name ns.
Proof.
  induction n as [nm at_ cs IH|t|] using node_ind'; intros mk ns ns' M Hn H.
  2,3: cbn in H; discriminate.
  destruct (str_eqb nm (L "ns")) eqn:E.
  - cbn [ns_child n_name] in H. rewrite E in H. apply bind_Ok in H as ([[name dn] de] & Hp & H). apply ns_props_name in Hp.
    apply bind_Ok in H as (sub & Hs & H). injection H as <-.
    assert (S0 : ns_ok (ns_start (map_find str_ltb name (ns_subs ns)) name dn de) /\ ns_name (ns_start (map_find str_ltb name (ns_subs ns)) name dn de) = name).
    { apply ns_start_ok. intros s X. eapply nss_find; [apply subs_nss; exact Hn|exact X]. }
    revert S0 Hs. generalize (ns_start (map_find str_ltb name (ns_subs ns)) name dn de) as s0. revert IH.
    induction cs as [|c cs IHc]; intros IH s0 [S1 S2] Hs.
    + injection Hs as <-. apply put_sub_ok; auto.
    + inversion IH as [|? ? IH1 IH2]; subst. destruct (is_elem c && mem_str (n_name c) ns_children).
      * apply bind_Ok in Hs as (s1 & Hc & Hs). apply IHc with (s0 := s1); auto. eapply IH1 in Hc as [C1 C2]; [|..|exact S1].
        -- split; congruence.
        -- intros x X1 X2. destruct (put_sub_ok (ns_name s0) x ns) as [Y1 Y2]; auto.
      * apply IHc with (s0 := s0); auto.
  - apply plain_child_ok in H as (H1 & H2 & _); auto. intros x (X1 & X2 & _). auto.
Qed.
Lemma set_nth_Forall {A} (Q : A -> Prop) i x l : Forall Q l -> Q x -> Forall Q (set_nth i x l).
Proof.
  intros H. revert i. induction H as [|y l Hy Hl IH]; intros i Hx; [destruct i; constructor|]. destruct i; cbn; constructor; auto.
Qed.
Lemma put_ns_ok k n s : proto_ok s -> ns_ok n -> k = ns_name n -> parseIsValidName k = true \/ k = [] /\ ns_subs n = [] -> proto_ok (put_ns k n s).
Proof.
  intros H Hn Hk V. unfold put_ns, set_cur, proto_ok. cbn [pr_schemas]. apply set_nth_Forall; [exact H|]. cbn [sc_ns set_sc_ns].
  apply nss_put; auto. apply proto_nth. exact H.
Qed.
Lemma schema_child_ok s n s' : proto_ok s -> schema_child s n = Ok s' -> proto_ok s'.
Proof.
  intros H X. pose proof (proto_nth s (pr_cur s) H) as N. fold (cur_schema s) in N. unfold schema_child in X. destruct (str_eqb (n_name n) (L "ns")) eqn:E.
  - apply bind_Ok in X as ([[name dn] de] & Hp & X). apply ns_props_name in Hp. apply bind_Ok in X as (ns & Hc & X). injection X as <-.
    assert (S0 : ns_ok (ns_start (map_find str_ltb name (sc_ns (cur_schema s))) name dn de) /\ ns_name (ns_start (map_find str_ltb name (sc_ns (cur_schema s))) name dn de) = name).
    { apply ns_start_ok. intros y Y. eapply nss_find; eassumption. }
    assert (R : ns_ok ns /\ ns_name ns = name).
    { revert Hc. unfold ns_children_of. apply (foldM_inv _ (fun x => ns_ok x /\ ns_name x = name)); [|exact S0].
      intros a b a' [A1 A2] Y. eapply ns_child_ok in Y as [Y1 Y2]; [|..|exact A1]; [split; congruence|].
      intros x X1 X2. apply proto_menv_ok. apply put_ns_ok; [exact H|exact X1|congruence|left; exact Hp]. }
    destruct R as [R1 R2]. apply put_ns_ok; auto.
  - apply bind_Ok in X as (g & Hc & X). injection X as <-.
    set (g0 := match map_find str_ltb [] (sc_ns (cur_schema s)) with Some g => g | None => empty_ns [] [] [] end) in *.
    assert (G : ns_ok g0 /\ ns_name g0 = [] /\ ns_subs g0 = []).
    { unfold g0. destruct (map_find str_ltb [] _) as [y|] eqn:F; [|split; [apply ns_ok_empty|split; reflexivity]].
      apply sfind_In in F. destruct (nss_names _ N _ _ F) as [F1 [F2|[_ F2]]]; [discriminate|]. split; [eapply nss_each; eassumption|]. auto. }
    destruct G as (G1 & G2 & G3).
    apply plain_child_ok in Hc as (C1 & C2 & C3); auto.
    + apply put_ns_ok; [assumption|assumption|congruence|]. right. split; [reflexivity|congruence].
    + intros x (X1 & X2 & X3). apply proto_menv_ok. apply put_ns_ok; [assumption|assumption|congruence|]. right. split; [reflexivity|congruence].
Qed.
Lemma validate_doc_ok s n s' : proto_ok s -> validate_doc s n = Ok s' -> proto_ok s'.
Proof.
  intros H X. unfold validate_doc in X. apply bind_Ok in X as (u & _ & X). apply bind_Ok in X as (s1 & H1 & X). apply bind_Ok in X as (s2 & H2 & X).
  revert X. apply (foldM_inv _ proto_ok); [intros a b a' Ha E; eapply schema_child_ok; eassumption|].
  assert (P1 : proto_ok s1).
  { unfold validate_schema in H1. apply bind_Ok in H1 as (sc & Hs & H1). apply bind_Ok in H1 as (u' & _ & H1).
    destruct (find_idx _ _); apply bind_Ok in H1 as (u2 & _ & H1); injection H1 as <-; [exact H|].
    unfold proto_ok. cbn. apply Forall_app. split; [exact H|]. constructor; [|constructor].
    unfold schema_parse in Hs. inv_all. apply nss_nil. }
  unfold validate_platforms in H2. apply bind_Ok in H2 as (l & _ & H2). apply bind_Ok in H2 as (l' & _ & H2). injection H2 as <-.
  unfold proto_ok, set_cur. cbn. apply set_nth_Forall; [exact P1|]. cbn. apply (proto_nth s1). exact P1.
Qed.
Theorem validate_ok multi stod docs s : validate multi stod docs = Ok s -> proto_ok s.
Proof.
  intros H. unfold validate in H. apply bind_Ok in H as (u & _ & H). apply bind_Ok in H as (s' & Hs & H). apply bind_Ok in H as (u' & _ & H). injection H as <-.
  revert Hs. apply (foldM_inv _ proto_ok); [intros; eapply validate_doc_ok; eassumption|]. constructor.
Qed.
