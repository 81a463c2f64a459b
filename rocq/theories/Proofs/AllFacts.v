(** Properties of every element of a validated protocol, by induction over its construction. *)
From Coq Require Import Sorting.Sorted Permutation.
From Verif.Model Require Import Base Common Xml Units Field FieldCommon IntField EnumField SetField FloatField OptCond Composite Message Frame Protocol.
From Verif.Spec Require Import Texts IntSpec FieldSpec ProtocolSpec.
From Verif.Proofs Require Import BaseFacts CommonFacts CondFacts MapFacts ProtocolFacts RefFacts DeclFacts.

(** predicates on the elements of a namespace *)
Record preds := mkPreds { q_field : field -> Prop; q_message : message -> Prop; q_iface : iface -> Prop; q_frame : frame -> Prop }.
Inductive ns_all (Q : preds) : nspace -> Prop :=
| ns_all_intro n : (forall k v, In (k, v) (ns_fields n) -> q_field Q v) -> (forall k v, In (k, v) (ns_messages n) -> q_message Q v) ->
    (forall k v, In (k, v) (ns_ifaces n) -> q_iface Q v) -> (forall k v, In (k, v) (ns_frames n) -> q_frame Q v) ->
    (forall k v, In (k, v) (ns_subs n) -> ns_all Q v) -> ns_all Q n.
Definition good (Q : preds) (me : menv) : Prop :=
  (forall n f, parse_field (me_env me) (mkCtx PNamespace 0 not_deprecated) n = Ok f -> q_field Q f) /\
  (forall n m, message_parse me n = Ok m -> q_message Q m) /\
  (forall n i, iface_parse me n = Ok i -> q_iface Q i) /\
  (forall n f, frame_parse me n = Ok f -> q_frame Q f).

Lemma kput_In {A} k (v : A) l x : In x (map_put key_ltb k v l) -> In x l \/ snd x = v.
Proof.
  induction l as [|[k' v'] l IH]; cbn.
  - intros [<-|[]]. auto.
  - destruct (key_ltb k k'); [intros [<-|X]; auto|]. destruct (key_ltb k' k); [intros [<-|X]; [auto|destruct (IH X); auto]|].
    intros [<-|X]; auto.
Qed.
Section All.
Variable Q : preds.
Lemma ns_all_empty a b c : ns_all Q (empty_ns a b c).
Proof. constructor; intros k v []. Qed.
Lemma ns_all_start found a b c : (forall s, found = Some s -> ns_all Q s) -> ns_all Q (ns_start found a b c).
Proof.
  intros H. destruct found as [s|]; cbn; [|apply ns_all_empty]. specialize (H s eq_refl). destruct (is_nil _); [|exact H].
  inversion H; subst. destruct s. constructor; assumption.
Qed.
Lemma ns_all_put_sub k s n : ns_all Q n -> ns_all Q s -> ns_all Q (put_sub k s n).
Proof.
  intros H Hs. inversion H; subst. destruct n. constructor; cbn in *; auto. intros k' v X. apply sput_In in X as [X|[= -> ->]]; eauto.
Qed.
Ltac put := let X := fresh in intros ? ? X; apply kput_In in X as [X|X]; [eauto|cbn in X; subst; assumption].
Lemma put_field_all v n : ns_all Q n -> q_field Q v -> ns_all Q (put_field v n).
Proof. intros H Hv. inversion H; subst. destruct n. constructor; cbn in *; auto. put. Qed.
Lemma put_message_all v n : ns_all Q n -> q_message Q v -> ns_all Q (put_message v n).
Proof. intros H Hv. inversion H; subst. destruct n. constructor; cbn in *; auto. put. Qed.
Lemma put_iface_all v n : ns_all Q n -> q_iface Q v -> ns_all Q (put_iface v n).
Proof. intros H Hv. inversion H; subst. destruct n. constructor; cbn in *; auto. put. Qed.
Lemma put_frame_all v n : ns_all Q n -> q_frame Q v -> ns_all Q (put_frame v n).
Proof. intros H Hv. inversion H; subst. destruct n. constructor; cbn in *; auto. put. Qed.

(** besides [ns_all] the invariant of ProtocolFacts is carried along *)
Definition both (n : nspace) : Prop := ns_all Q n /\ ns_ok n.
Definition mk_all (ns : nspace) (mk : nspace -> menv) : Prop := forall x, both x -> ns_name x = ns_name ns -> menv_ok (mk x) /\ good Q (mk x).
Definition mk_all_fixed (ns : nspace) (mk : nspace -> menv) : Prop := forall x, ns_all Q x -> keeps ns x -> menv_ok (mk x) /\ good Q (mk x).
Definition keeps_all (ns ns' : nspace) : Prop := ns_all Q ns' /\ keeps ns ns'.
Lemma define_field_all mk ns n ns' : menv_ok (mk ns) -> good Q (mk ns) -> both ns -> define_field mk ns n = Ok ns' -> keeps_all ns ns'.
Proof.
  intros M (G & _) [Ha Ho] H. split; [|eapply define_field_ok; eassumption]. unfold define_field in H. apply bind_Ok in H as (f & Hf & H). apply bind_Ok in H as (u & _ & H).
  destruct (ns_find_field ns (f_name f)); [discriminate|]. injection H as <-. apply put_field_all; eauto.
Qed.
Lemma define_message_all mk ns n ns' : menv_ok (mk ns) -> good Q (mk ns) -> both ns -> define_message mk ns n = Ok ns' -> keeps_all ns ns'.
Proof.
  intros M (_ & G & _) [Ha Ho] H. split; [|eapply define_message_ok; eassumption]. unfold define_message in H. apply bind_Ok in H as (f & Hf & H).
  destruct (ns_find_message ns (m_name f)); [discriminate|]. injection H as <-. apply put_message_all; eauto.
Qed.
Lemma define_iface_all mk ns n ns' : menv_ok (mk ns) -> good Q (mk ns) -> both ns -> define_iface mk ns n = Ok ns' -> keeps_all ns ns'.
Proof.
  intros M (_ & _ & G & _) [Ha Ho] H. split; [|eapply define_iface_ok; eassumption]. unfold define_iface in H. apply bind_Ok in H as (f & Hf & H).
  destruct (ns_find_iface ns (if_name f)); [discriminate|]. injection H as <-. apply put_iface_all; eauto.
Qed.
Lemma define_frame_all mk ns n ns' : menv_ok (mk ns) -> good Q (mk ns) -> both ns -> define_frame mk ns n = Ok ns' -> keeps_all ns ns'.
Proof.
  intros M (_ & _ & _ & G) [Ha Ho] H. split; [|eapply define_frame_ok; eassumption]. unfold define_frame in H. apply bind_Ok in H as (f & Hf & H).
  destruct (ns_find_frame ns (fr_name f)); [discriminate|]. injection H as <-. apply put_frame_all; eauto.
Qed.
Lemma foldM_keeps_all (def : nspace -> node -> res nspace) l ns ns' :
  (forall a b a', keeps_all ns a -> def a b = Ok a' -> keeps_all a a') -> both ns -> foldM def l ns = Ok ns' -> keeps_all ns ns'.
Proof.
  intros H [Ha Ho]. apply (foldM_inv _ (keeps_all ns)); [|split; [exact Ha|apply keeps_refl; exact Ho]].
  intros a b a' Hk E. pose proof (H _ _ _ Hk E) as [X Y]. split; [exact X|]. eapply keeps_trans; [apply Hk|exact Y].
Qed.
Lemma plain_child_all mk ns n ns' : str_eqb (n_name n) (L "ns") = false -> mk_all_fixed ns mk -> both ns ->
  ns_child mk ns n = Ok ns' -> keeps_all ns ns'.
Proof.
  intros E M Hb H.
  assert (D : forall name (def : nspace -> node -> res nspace), (forall a b a', keeps_all ns a -> def a b = Ok a' -> keeps_all a a') ->
    define_all name def ns n = Ok ns' -> keeps_all ns ns').
  { intros name def Hd. unfold define_all. apply foldM_keeps_all; [|exact Hb]. intros a b a' Ha X. apply bind_Ok in X as (u & _ & X). eapply Hd; eassumption. }
  assert (K : forall a, keeps_all ns a -> both a) by (intros a [A B]; split; [exact A|apply B]).
  assert (K0 : keeps_all ns ns) by (destruct Hb; split; [assumption|apply keeps_refl; assumption]).
  assert (M1 : forall a, keeps_all ns a -> menv_ok (mk a)) by (intros a [A B]; apply M; assumption).
  assert (M2 : forall a, keeps_all ns a -> good Q (mk a)) by (intros a [A B]; apply M; assumption).
  destruct n as [nm at_ cs|t|]; cbn [ns_child n_name] in H, E; [| discriminate..]. rewrite E in H.
  destruct (str_eqb nm (L "fields")). { revert H. apply foldM_keeps_all; [|exact Hb]. intros a b a' Ha X. eapply define_field_all; eauto. }
  destruct (str_eqb nm (L "message")); [eapply define_message_all; eauto|].
  destruct (str_eqb nm (L "messages")). { revert H. apply D. intros a b a' Ha X. eapply define_message_all; eauto. }
  destruct (str_eqb nm (L "frame")); [eapply define_frame_all; eauto|].
  destruct (str_eqb nm (L "frames")). { revert H. apply D. intros a b a' Ha X. eapply define_frame_all; eauto. }
  destruct (str_eqb nm (L "interface")); [eapply define_iface_all; eauto|].
  destruct (str_eqb nm (L "interfaces")). { revert H. apply D. intros a b a' Ha X. eapply define_iface_all; eauto. }
  discriminate.
Qed.
Lemma ns_child_all n : forall mk ns ns', mk_all ns mk -> both ns -> ns_child mk ns n = Ok ns' -> both ns' /\ ns_name ns' = ns_name ns.
Proof.
  induction n as [nm at_ cs IH|t|] using node_ind'; intros mk ns ns' M Hb H.
  2,3: cbn in H; discriminate.
  destruct (str_eqb nm (L "ns")) eqn:E.
  - cbn [ns_child n_name] in H. rewrite E in H. apply bind_Ok in H as ([[name dn] de] & Hp & H). apply ns_props_name in Hp.
    apply bind_Ok in H as (sub & Hs & H). injection H as <-. destruct Hb as [Ha Ho].
    assert (S0 : both (ns_start (map_find str_ltb name (ns_subs ns)) name dn de) /\ ns_name (ns_start (map_find str_ltb name (ns_subs ns)) name dn de) = name).
    { destruct (ns_start_ok (map_find str_ltb name (ns_subs ns)) name dn de) as [N1 N2].
      - intros s X. eapply nss_find; [apply subs_nss; exact Ho|exact X].
      - split; [|exact N2]. split; [|exact N1]. apply ns_all_start. intros s X. apply sfind_In in X. inversion Ha; subst. eauto. }
    revert S0 Hs. generalize (ns_start (map_find str_ltb name (ns_subs ns)) name dn de) as s0. revert IH.
    induction cs as [|c cs IHc]; intros IH s0 [[S1 S1'] S2] Hs.
    + injection Hs as <-. destruct (put_sub_ok name s0 ns); auto. split; [|assumption]. split; [apply ns_all_put_sub; assumption|assumption].
    + inversion IH as [|? ? IH1 IH2]; subst. destruct (is_elem c && mem_str (n_name c) ns_children).
      * apply bind_Ok in Hs as (s1 & Hc & Hs). apply IHc with (s0 := s1); auto. eapply IH1 in Hc as [C1 C2]; [|..|split; [exact S1|exact S1']].
        -- split; [exact C1|congruence].
        -- intros x [X0 X1] X2. destruct (put_sub_ok (ns_name s0) x ns) as [Y1 Y2]; auto. apply M; [|exact Y2]. split; [apply ns_all_put_sub; assumption|assumption].
      * apply IHc with (s0 := s0); auto. split; [split; assumption|reflexivity].
  - apply plain_child_all in H as (H0 & H1 & H2 & _); auto; [split; [split; assumption|exact H2]|].
    intros x X0 (X1 & X2 & _). apply M; [|exact X2]. split; assumption.
Qed.
End All.

(** ** Protocols *)
(** what does not change in a schema once it is defined *)
Definition same_header (a b : schema) : Prop :=
  sc_name a = sc_name b /\ sc_version a = sc_version b /\ sc_dsl a = sc_dsl b /\ sc_endian a = sc_endian b /\ sc_nonUnique a = sc_nonUnique b.
Definition later (a b : schema) : Prop := same_header a b /\ (forall x, In x (sc_platforms a) -> In x (sc_platforms b)).
Lemma later_refl a : later a a.
Proof. unfold later, same_header. auto 10. Qed.
Lemma ns_all_impl (Q R : preds) n : (forall f, q_field Q f -> q_field R f) -> (forall f, q_message Q f -> q_message R f) ->
  (forall f, q_iface Q f -> q_iface R f) -> (forall f, q_frame Q f -> q_frame R f) -> ns_all Q n -> ns_all R n.
Proof. intros A B C D. induction 1; constructor; eauto. Qed.
Section Proto.
Variable Q : schema -> preds.
Hypothesis Q_later : forall a b, later a b -> (forall f, q_field (Q a) f -> q_field (Q b) f) /\ (forall f, q_message (Q a) f -> q_message (Q b) f) /\
  (forall f, q_iface (Q a) f -> q_iface (Q b) f) /\ (forall f, q_frame (Q a) f -> q_frame (Q b) f).
Lemma Q_later_ns a b n : later a b -> ns_all (Q a) n -> ns_all (Q b) n.
Proof. intros L. destruct (Q_later a b L) as (A & B & C & D). apply ns_all_impl; assumption. Qed.
Definition sc_all (sc : schema) : Prop := (forall k n, In (k, n) (sc_ns sc) -> ns_all (Q sc) n) /\
  StronglySorted (fun a b => str_ltb a b = true) (sc_platforms sc).
(** the state while the elements are parsed *)
Variable multi : bool.
Record state_ok (s : protocol) : Prop := {
  st_ok : proto_ok s; st_names : names_ok s; st_all : Forall sc_all (pr_schemas s); st_multi : pr_multi s = multi;
  st_single : multi = false -> (length (pr_schemas s) <= 1)%nat }.
Hypothesis Q_good : forall s, state_ok s -> (pr_cur s < length (pr_schemas s))%nat -> good (Q (cur_schema s)) (menv_of s).

Lemma nth_all s i : state_ok s -> sc_all (nth i (pr_schemas s) no_schema).
Proof.
  intros [_ _ A _ _]. destruct (nth_in_or_default i (pr_schemas s) no_schema) as [X| ->]; [|split; [intros k n []|constructor]].
  rewrite Forall_forall in A. apply A, X.
Qed.
Lemma nth_set_nth {B} i (x : B) l d : (i < length l)%nat -> nth i (set_nth i x l) d = x.
Proof. clear. revert i. induction l as [|y l IH]; intros [|i] H; cbn in *; try lia; [reflexivity|]. apply IH. lia. Qed.
Lemma cur_set_cur sc s : (pr_cur s < length (pr_schemas s))%nat -> cur_schema (set_cur sc s) = sc.
Proof. intros H. unfold cur_schema, set_cur. cbn. apply nth_set_nth. exact H. Qed.
Lemma state_set_cur sc s : state_ok s -> later (cur_schema s) sc -> nss_ok (sc_ns sc) -> sc_all sc -> state_ok (set_cur sc s).
Proof.
  intros H L N A. pose proof H as [O Nm F M S]. constructor; unfold set_cur; cbn.
  - unfold proto_ok. apply set_nth_Forall; assumption.
  - apply names_set_cur; [symmetry; apply L|exact Nm].
  - apply set_nth_Forall; assumption.
  - exact M.
  - rewrite set_nth_length. exact S.
Qed.
Lemma later_set_ns sc l : later sc (set_sc_ns l sc).
Proof. unfold later, same_header, set_sc_ns. cbn. auto 10. Qed.
Lemma later_set_ns' sc l : later (set_sc_ns l sc) sc.
Proof. unfold later, same_header, set_sc_ns. cbn. auto 10. Qed.
Lemma state_put_ns k x s : state_ok s -> ns_all (Q (cur_schema s)) x -> ns_ok x -> k = ns_name x ->
  parseIsValidName k = true \/ k = [] /\ ns_subs x = [] -> state_ok (put_ns k x s).
Proof.
  intros H A O E V. unfold put_ns. apply state_set_cur; [exact H|apply later_set_ns|..].
  - cbn. apply nss_put; auto. apply proto_nth. apply H.
  - pose proof (nth_all s (pr_cur s) H) as [C P]. split; [|exact P]. cbn [sc_ns set_sc_ns]. intros k' n X. eapply Q_later_ns; [apply later_set_ns|].
    apply sput_In in X as [X|[= -> ->]]; [eapply C; exact X|exact A].
Qed.
Lemma good_impl (a b : schema) me : later a b -> good (Q a) me -> good (Q b) me.
Proof. intros L (G1 & G2 & G3 & G4). destruct (Q_later a b L) as (A & B & C & D). repeat split; eauto. Qed.
Lemma good_put_ns k x s : state_ok (put_ns k x s) -> (pr_cur s < length (pr_schemas s))%nat -> menv_ok (menv_of (put_ns k x s)) /\ good (Q (cur_schema s)) (menv_of (put_ns k x s)).
Proof.
  intros H Lt. split; [apply proto_menv_ok; apply H|]. apply (good_impl (cur_schema (put_ns k x s))).
  - unfold put_ns. rewrite cur_set_cur by exact Lt. apply later_set_ns'.
  - apply Q_good; [exact H|]. unfold put_ns, set_cur. cbn. rewrite set_nth_length. exact Lt.
Qed.
Lemma schema_child_all s n s' : state_ok s -> (pr_cur s < length (pr_schemas s))%nat -> schema_child s n = Ok s' ->
  state_ok s' /\ (pr_cur s' < length (pr_schemas s'))%nat.
Proof.
  intros H Lt X. assert (Ln : forall k x, (pr_cur (put_ns k x s) < length (pr_schemas (put_ns k x s)))%nat) by (intros; unfold put_ns, set_cur; cbn; rewrite set_nth_length; exact Lt).
  pose proof (proto_nth s (pr_cur s) (st_ok s H)) as N. fold (cur_schema s) in N. pose proof (nth_all s (pr_cur s) H) as [A _]. fold (cur_schema s) in A.
  unfold schema_child in X. destruct (str_eqb (n_name n) (L "ns")) eqn:E.
  - apply bind_Ok in X as ([[name dn] de] & Hp & X). apply ns_props_name in Hp. apply bind_Ok in X as (ns & Hc & X). injection X as <-.
    assert (S0 : both (Q (cur_schema s)) (ns_start (map_find str_ltb name (sc_ns (cur_schema s))) name dn de) /\ ns_name (ns_start (map_find str_ltb name (sc_ns (cur_schema s))) name dn de) = name).
    { destruct (ns_start_ok (map_find str_ltb name (sc_ns (cur_schema s))) name dn de) as [N1 N2].
      - intros y Y. eapply nss_find; eassumption.
      - split; [|exact N2]. split; [|exact N1]. apply ns_all_start. intros y Y. apply sfind_In in Y. eapply A. exact Y. }
    assert (R : both (Q (cur_schema s)) ns /\ ns_name ns = name).
    { revert Hc. unfold ns_children_of. apply (foldM_inv _ (fun x => both (Q (cur_schema s)) x /\ ns_name x = name)); [|exact S0].
      intros a b a' [A1 A2] Y. eapply ns_child_all in Y as [Y1 Y2]; [|..|exact A1]; [split; [exact Y1|congruence]|].
      intros x [X0 X1] X2. apply good_put_ns; [|exact Lt]. apply state_put_ns; auto; [congruence]. }
    destruct R as [[R0 R1] R2]. split; [|apply Ln]. apply state_put_ns; auto.
  - apply bind_Ok in X as (g & Hc & X). injection X as <-.
    set (g0 := match map_find str_ltb [] (sc_ns (cur_schema s)) with Some g => g | None => empty_ns [] [] [] end) in *.
    assert (G : both (Q (cur_schema s)) g0 /\ ns_name g0 = [] /\ ns_subs g0 = []).
    { unfold g0. destruct (map_find str_ltb [] _) as [y|] eqn:F; [|split; [split; [apply ns_all_empty|apply ns_ok_empty]|split; reflexivity]].
      apply sfind_In in F. destruct (nss_names _ N _ _ F) as [F1 [F2|[_ F2]]]; [discriminate|]. split; [split; [eapply A; exact F|eapply nss_each; eassumption]|]. auto. }
    destruct G as (G1 & G2 & G3).
    assert (K : forall x, ns_all (Q (cur_schema s)) x -> keeps g0 x -> state_ok (put_ns [] x s)).
    { intros x X0 (X1 & X2 & X3). apply state_put_ns; auto; [congruence|]. right. split; [reflexivity|congruence]. }
    apply (plain_child_all (Q (cur_schema s))) in Hc as (C0 & C1); auto.
    intros x X0 X1. apply good_put_ns; [|exact Lt]. auto.
Qed.
Lemma add_platform_In x l y : In y (add_platform x l) <-> y = x \/ In y l.
Proof.
  induction l as [|z l IH]; cbn; [intuition|]. destruct (str_ltb z x); cbn; [rewrite IH; intuition|]. destruct (str_eqb z x) eqn:E; cbn; [|intuition].
  apply str_eqb_eq in E as ->. intuition.
Qed.
Lemma add_platform_sorted x l : StronglySorted (fun a b => str_ltb a b = true) l -> StronglySorted (fun a b => str_ltb a b = true) (add_platform x l).
Proof.
  induction 1 as [|y l S IH F]; cbn; [constructor; constructor|]. destruct (str_ltb y x) eqn:E.
  - constructor; [exact IH|]. rewrite Forall_forall in *. intros z Z. apply add_platform_In in Z as [->|Z]; auto.
  - destruct (str_eqb y x) eqn:E2; [constructor; assumption|]. apply str_eqb_neq in E2.
    assert (Lt : str_ltb x y = true) by (destruct (str_ltb x y) eqn:E3; [reflexivity|]; destruct E2; apply str_ltb_total; assumption).
    constructor; [constructor; assumption|]. constructor; [exact Lt|]. rewrite Forall_forall in *. intros z Z. eapply str_ltb_trans; eauto.
Qed.
Definition platforms_grow (l l' : list str) : Prop :=
  (StronglySorted (fun a b => str_ltb a b = true) l -> StronglySorted (fun a b => str_ltb a b = true) l') /\ (forall x, In x l -> In x l').
Lemma validate_platform_grow l n l' : validate_platform l n = Ok l' -> platforms_grow l l'.
Proof.
  unfold validate_platform. intros H. apply bind_Ok in H as (p & _ & H). apply bind_Ok in H as (name & _ & H). apply bind_Ok in H as (u & _ & H).
  injection H as <-. split; [apply add_platform_sorted|]. intros x X. apply add_platform_In. auto.
Qed.
Lemma validate_platforms_later s n s' : (pr_cur s < length (pr_schemas s))%nat -> validate_platforms s n = Ok s' ->
  exists l, s' = set_cur (set_platforms l (cur_schema s)) s /\ platforms_grow (sc_platforms (cur_schema s)) l.
Proof.
  intros Lt H. unfold validate_platforms in H. apply bind_Ok in H as (l & H1 & H). apply bind_Ok in H as (l' & H2 & H). injection H as <-.
  exists l'. split; [reflexivity|]. set (P := platforms_grow (sc_platforms (cur_schema s))).
  assert (T : forall a b, P a -> platforms_grow a b -> P b) by (intros a b [A1 A2] [B1 B2]; split; auto).
  assert (P l). { revert H1. apply (foldM_inv _ P); [|split; auto]. intros a b a' Ha X. apply bind_Ok in X as (u & _ & X). eapply T; [exact Ha|]. eapply validate_platform_grow. exact X. }
  revert H2. apply (foldM_inv _ P); [|assumption]. intros a b a' Ha X. eapply T; [exact Ha|]. eapply validate_platform_grow. exact X.
Qed.
Lemma validate_schema_all s n s' : state_ok s -> validate_schema s n = Ok s' -> state_ok s' /\ (pr_cur s' < length (pr_schemas s'))%nat.
Proof.
  intros H X. assert (X' := X). unfold validate_schema in X. apply bind_Ok in X as (sc & Hs & X). apply bind_Ok in X as (u & _ & X).
  pose proof (names_validate_schema _ _ _ (st_names _ H) X') as Nm. destruct H as [O N F M S].
  destruct (find_idx _ _) as [i|] eqn:E; apply bind_Ok in X as (u2 & G & X); injection X as <-.
  - apply find_idx_spec in E as (y & E & _). assert (i < length (pr_schemas s))%nat by (apply nth_error_Some; congruence). split; [|cbn; assumption].
    constructor; auto.
  - assert (Z : sc_ns sc = [] /\ sc_platforms sc = []) by (unfold schema_parse in Hs; inv_all; auto). destruct Z as [Z1 Z2].
    split; [|cbn; rewrite app_length; cbn; lia]. constructor; auto.
    + unfold proto_ok. cbn. apply Forall_app. split; [exact O|]. constructor; [|constructor]. rewrite Z1. apply nss_nil.
    + cbn. apply Forall_app. split; [exact F|]. constructor; [|constructor]. split; [rewrite Z1; intros k x []|rewrite Z2; constructor].
    + intros Em. cbn. rewrite app_length. cbn. unfold guard in G. destruct (pr_schemas s) as [|z l]; [cbn; lia|]. rewrite M, Em in G. rewrite andb_false_r in G. discriminate.
Qed.
Lemma validate_doc_all s n s' : state_ok s -> validate_doc s n = Ok s' -> state_ok s'.
Proof.
  intros H X. unfold validate_doc in X. apply bind_Ok in X as (u & _ & X). apply bind_Ok in X as (s1 & H1 & X). apply bind_Ok in X as (s2 & H2 & X).
  apply validate_schema_all in H1 as [O1 L1]; [|exact H]. apply validate_platforms_later in H2 as (l & -> & P1 & P2); [|exact L1].
  assert (Lt : later (cur_schema s1) (set_platforms l (cur_schema s1))) by (unfold later, same_header; cbn; auto 10).
  enough (R : state_ok s' /\ (pr_cur s' < length (pr_schemas s'))%nat) by apply R.
  revert X. apply (foldM_inv _ (fun s => state_ok s /\ (pr_cur s < length (pr_schemas s))%nat)).
  - intros a b a' [A1 A2] Y. eapply schema_child_all; eassumption.
  - split; [|unfold set_cur; cbn; rewrite set_nth_length; exact L1]. pose proof (nth_all s1 (pr_cur s1) O1) as [A P]. fold (cur_schema s1) in A, P.
    apply state_set_cur; auto.
    + cbn. apply (proto_nth s1), O1.
    + split; [|cbn; auto]. cbn. intros k x Hx. eapply Q_later_ns; [exact Lt|]. eapply A. exact Hx.
Qed.
Lemma state_new stod : state_ok (new_protocol multi stod).
Proof. constructor; cbn; auto; [constructor|constructor; cbn; [constructor|constructor|auto]]. Qed.
Theorem validate_all stod docs s : validate multi stod docs = Ok s -> state_ok s.
Proof.
  intros H. unfold validate in H. apply bind_Ok in H as (u & _ & H). apply bind_Ok in H as (s' & Hs & H). apply bind_Ok in H as (u' & _ & H). injection H as <-.
  revert Hs. apply (foldM_inv _ state_ok); [intros; eapply validate_doc_all; eassumption|]. apply state_new.
Qed.
End Proto.
(** what is found by a reference satisfies the predicates of the schema it is in *)
Lemma namespace_all Q l path n : (forall k m, In (k, m) l -> ns_all Q m) -> namespace_at l path n -> ns_all Q n.
Proof.
  intros H N. induction N as [l k n X|l k n path m X N IH]; [eauto|]. apply IH. intros k' m' Y. specialize (H _ _ X). inversion H; subst. eauto.
Qed.
