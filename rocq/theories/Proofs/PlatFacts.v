(** Platforms (C31). *)
From Coq Require Import Sorting.Sorted Sorting.Permutation.
From Verif.Model Require Import Base Common Xml Units Field FieldCommon IntField EnumField SetField FloatField OptCond Composite Message Frame Protocol.
From Verif.Spec Require Import Texts IntSpec XmlSpec FieldSpec ProtocolSpec PlatformSpec.
From Verif.Proofs Require Import BaseFacts CommonFacts RangeFacts XmlFacts FieldInv FieldFacts OwnFacts MapFacts ProtocolFacts RefFacts AllFacts.

Notation lt_txt := (fun a b : str => str_ltb a b = true).
Definition segment (w p : str) : Prop :=
  exists a b, w = a ++ p ++ b /\ ~ In ","%char p /\ (a = [] \/ exists a', a = a' ++ T ",") /\ (b = [] \/ exists b', b = T "," ++ b').
Lemma pieces_comma p s : ~ In ","%char p -> pieces "," (p ++ ","%char :: s) = p :: pieces "," s.
Proof.
  induction p as [|c p IH]; intros N; [reflexivity|]. cbn. destruct (ch_eqb c ",") eqn:E; [apply ch_eqb_eq in E; destruct N; left; exact E|].
  rewrite IH; [reflexivity|]. intros X. apply N. right. exact X.
Qed.
Lemma pieces_plain p : ~ In ","%char p -> p <> [] -> pieces "," p = [p].
Proof.
  induction p as [|c p IH]; intros N Np; [congruence|]. cbn. destruct (ch_eqb c ",") eqn:E; [apply ch_eqb_eq in E; destruct N; left; exact E|].
  destruct p as [|d p]; [reflexivity|]. rewrite IH; [reflexivity| |discriminate]. intros X. apply N. right. exact X.
Qed.
Lemma pieces_segment k : forall w p, (length w <= k)%nat -> In p (pieces "," w) -> segment w p.
Proof.
  induction k as [|k IH]; intros w p Lk X; [destruct w; [destruct X|cbn in Lk; lia]|]. destruct (split_at "," w) as [[q r]|] eqn:E.
  - apply split_at_spec in E as [-> N]. rewrite pieces_comma in X by exact N. destruct X as [<-|X].
    + exists [], (","%char :: r). split; [reflexivity|]. split; [exact N|]. split; [auto|]. right. exists r. reflexivity.
    + apply IH in X as (a & b & -> & Np & A & B); [|rewrite app_length in Lk; cbn in Lk; lia]. exists (q ++ ","%char :: a), b.
      split; [rewrite <- app_assoc; reflexivity|]. split; [exact Np|]. split; [|exact B]. right.
      destruct A as [->|(a' & ->)]; [exists q; reflexivity|exists (q ++ ","%char :: a'); rewrite <- app_assoc; reflexivity].
  - apply split_at_None in E. destruct w as [|c w]; [destruct X|]. rewrite pieces_plain in X; [|exact E|discriminate]. destruct X as [<-|[]].
    exists [], []. rewrite app_nil_r. auto.
Qed.
Lemma segment_pieces k : forall w p, (length w <= k)%nat -> segment w p -> p <> [] -> In p (pieces "," w).
Proof.
  induction k as [|k IH]; intros w p Lk (a & b & -> & N & A & B) Np.
  { destruct a; [destruct p; [congruence|cbn in Lk; lia]|cbn in Lk; lia]. }
  destruct A as [->|(a' & ->)].
  - cbn. destruct B as [->|(b' & ->)]; [rewrite app_nil_r, pieces_plain by assumption; left; reflexivity|]. change (T "," ++ b') with (","%char :: b'). rewrite pieces_comma by exact N. left; reflexivity.
  - destruct (split_at "," (a' ++ T ",")) as [[q r]|] eqn:E.
    + apply split_at_spec in E as [E Nq]. rewrite E, <- app_assoc. cbn [app]. rewrite pieces_comma by exact Nq. right.
      apply IH; [|exists r, b; split; [reflexivity|]; split; [exact N|]; split; [|exact B]|exact Np].
      * rewrite E, !app_length in Lk. cbn in Lk. rewrite !app_length. lia.
      * destruct r as [|c r] using rev_ind; [auto|]. right. exists r. change (q ++ ","%char :: r ++ [c]) with (q ++ ((","%char :: r) ++ [c])) in E. rewrite app_assoc in E.
        apply app_inj_tail in E as [_ <-]. reflexivity.
    + exfalso. apply split_at_None in E. apply E. apply in_or_app. right. left. reflexivity.
Qed.
Lemma items_spec w x : x <> [] -> (In x (map trim (pieces "," w)) <-> item_of w x).
Proof.
  intros Nx. rewrite in_map_iff. split.
  - intros (p & <- & H). apply (pieces_segment (length w)) in H as (a & b & -> & N & A & B); [|lia]. exists a, p, b. repeat split; auto. apply trim_trimmed.
  - intros (a & p & b & -> & N & A & B & Tr). exists p. pose proof (trimmed_det _ _ _ Tr (trim_trimmed p)) as <-. split; [reflexivity|].
    eapply segment_pieces; [apply le_n| |].
    + exists a, b. auto.
    + intros ->. destruct Tr as (u & v & E & _). destruct u; [|discriminate]. destruct x; [congruence|discriminate].
Qed.

(** sorted texts *)
Lemma lower_bound_In x l : StronglySorted lt_txt l -> lower_bound_is x l = true <-> In x l.
Proof.
  induction 1 as [|y l S IH F]; cbn; [split; [discriminate|intros []]|]. destruct (str_ltb y x) eqn:E.
  - rewrite IH. split; [auto|]. intros [->|X]; [rewrite str_ltb_irrefl in E; discriminate|exact X].
  - rewrite str_eqb_eq. split; [auto|]. intros [->|X]; [reflexivity|]. rewrite Forall_forall in F. rewrite (F _ X) in E. discriminate.
Qed.
Lemma uniq_In l x : In x (uniq l) <-> In x l.
Proof.
  induction l as [|y l IH]; [reflexivity|]. cbn [uniq]. destruct l as [|z l]; [reflexivity|]. destruct (str_eqb y z) eqn:E.
  - apply str_eqb_eq in E as ->. rewrite IH. cbn. intuition.
  - cbn [In] in *. rewrite IH. reflexivity.
Qed.
Lemma uniq_sorted l : StronglySorted (fun a b => str_ltb b a = false) l -> StronglySorted lt_txt (uniq l).
Proof.
  induction 1 as [|y l S IH F]; [constructor|]. cbn [uniq]. destruct l as [|z l]; [constructor; constructor|]. destruct (str_eqb y z) eqn:E; [exact IH|].
  apply str_eqb_neq in E. constructor; [exact IH|]. apply Forall_forall. intros x X. change (In x (uniq (z :: l))) in X. rewrite (uniq_In (z :: l)) in X.
  assert (Z : str_ltb y z = true). { destruct (str_ltb y z) eqn:G; [reflexivity|]. destruct E. apply str_ltb_total; [exact G|]. inversion F; assumption. }
  destruct X as [->|X]; [exact Z|]. inversion S as [|? ? _ G]; subst. rewrite Forall_forall in G. specialize (G _ X).
  destruct (str_ltb y x) eqn:W; [reflexivity|]. destruct (str_ltb z x) eqn:W2.
  - rewrite (str_ltb_trans _ _ _ Z W2) in W. discriminate.
  - assert (z = x) by (apply str_ltb_total; assumption). congruence.
Qed.
Lemma str_sort_sorted l : StronglySorted (fun a b => str_ltb b a = false) (isort str_ltb l).
Proof.
  apply (sort_sorted str_ltb (fun _ => True)).
  - intros a b _ _ H. destruct (str_ltb b a) eqn:E; [|reflexivity]. rewrite <- (str_ltb_irrefl a). symmetry. eapply str_ltb_trans; eassumption.
  - intros a b c _ _ _ H1 H2. destruct (str_ltb c a) eqn:E; [|reflexivity]. destruct (str_ltb b c) eqn:F.
    + rewrite (str_ltb_trans _ _ _ F E) in H1. discriminate.
    + rewrite (str_ltb_total b c F H2) in H1. congruence.
  - apply Forall_forall. auto.
Qed.
Lemma set_difference_In a : forall b x, StronglySorted lt_txt a -> StronglySorted lt_txt b ->
  (In x (set_difference a b) <-> In x a /\ ~ In x b).
Proof.
  induction a as [|y a IHa]; intros b x Sa Sb; [cbn; tauto|]. inversion Sa as [|? ? Sa' Fa]; subst. rewrite Forall_forall in Fa.
  induction Sb as [|z b Sb IHb Fb]; [cbn; tauto|]. pose proof Fb as Fb'. rewrite Forall_forall in Fb. cbn [set_difference].
  destruct (str_ltb y z) eqn:E1.
  - cbn [In]. rewrite IHa; [|exact Sa'|constructor; assumption]. cbn [In]. split.
    + intros [->|[X Y]]; [|tauto]. split; [auto|]. intros [->|X]; [rewrite str_ltb_irrefl in E1; discriminate|].
      specialize (Fb _ X). pose proof (str_ltb_trans _ _ _ E1 Fb) as W. rewrite str_ltb_irrefl in W. discriminate.
    + tauto.
  - destruct (str_ltb z y) eqn:E2.
    + change ((fix go (b0 : list str) : list str := match b0 with [] => y :: a | y0 :: b' => if str_ltb y y0 then y :: set_difference a b0 else if str_ltb y0 y then go b' else set_difference a b' end) b)
        with (set_difference (y :: a) b). rewrite IHb. cbn [In]. split; [|tauto]. intros [X Y]. split; [exact X|]. intros [<-|Z]; [|auto].
      destruct X as [->|X]; [rewrite str_ltb_irrefl in E2; discriminate|]. rewrite (Fa _ X) in E1. discriminate.
    + pose proof (str_ltb_total _ _ E1 E2) as <-. rewrite IHa by assumption. cbn [In]. split.
      * intros [X Y]. split; [auto|]. intros [<-|Z]; [|auto]. specialize (Fa _ X). cbn in Fa. rewrite str_ltb_irrefl in Fa. discriminate.
      * intros [[<-|X] Y]; [tauto|tauto].
Qed.
Lemma set_difference_sorted a : forall b, StronglySorted lt_txt a -> StronglySorted lt_txt b -> StronglySorted lt_txt (set_difference a b).
Proof.
  induction a as [|y a IHa]; intros b Sa Sb; [constructor|]. pose proof Sa as Sa0. inversion Sa as [|? ? Sa' Fa]; subst.
  induction Sb as [|z b Sb IHb Fb]; [exact Sa|]. cbn [set_difference]. destruct (str_ltb y z).
  - constructor; [apply IHa; [assumption|constructor; assumption]|]. rewrite Forall_forall in *. intros x X. apply set_difference_In in X as [X _]; [auto|assumption|constructor; [assumption|rewrite Forall_forall; assumption]].
  - destruct (str_ltb z y); [exact IHb|]. apply IHa; assumption.
Qed.
Lemma lt_NoDup l : StronglySorted lt_txt l -> NoDup l.
Proof.
  induction 1 as [|x l S IH F]; constructor; [|exact IH]. intros X. rewrite Forall_forall in F. specialize (F _ X). cbn in F. rewrite str_ltb_irrefl in F. discriminate.
Qed.
(** properties of a message element *)
Lemma message_supplied me n m (st : message_steps me n m) k : In k message_common_props -> k <> [] -> ~ In k message_extra_props ->
  supplied n k (values_of (ms_p _ _ _ st) k).
Proof.
  intros H N E. destruct (ms_props _ _ _ st) as (p & H1 & H2). rewrite (children_as_props_other _ _ _ _ H2 k E). eapply element_props_supplied; eassumption.
Qed.
Lemma platforms_result me p old l : message_platforms me p old = Ok l -> StronglySorted lt_txt (me_platforms me) ->
  match find_prop p (L "platforms") with
  | None => l = old
  | Some v => exists w, (v = "+"%char :: w \/ v = "-"%char :: w) /\ (exists x, In x (map trim (pieces "," w))) /\
     (forall x, In x (map trim (pieces "," w)) -> x <> [] /\ In x (me_platforms me)) /\
     (v = "+"%char :: w -> StronglySorted lt_txt l /\ forall x, In x l <-> In x (map trim (pieces "," w))) /\
     (v = "-"%char :: w -> l <> [] /\ exists r, l = old ++ r /\ StronglySorted lt_txt r /\ forall x, In x r <-> In x (me_platforms me) /\ ~ In x (map trim (pieces "," w)))
  end.
Proof.
  unfold message_platforms. intros H S. apply bind_Ok in H as (u & _ & H). destruct (find_prop p (L "platforms")) as [[|op w]|]; [discriminate| |congruence].
  apply bind_Ok in H as (u1 & H1 & H). apply bind_Ok in H as (u2 & H2 & H). apply bind_Ok in H as (u3 & H3 & H). apply guard_Ok in H1, H2, H3.
  set (ps := map trim (pieces "," w)) in *. exists w.
  assert (SS : StronglySorted lt_txt (uniq (isort str_ltb ps))) by (apply uniq_sorted, str_sort_sorted).
  assert (I : forall x, In x (uniq (isort str_ltb ps)) <-> In x ps) by (intros x; rewrite uniq_In, sort_In; reflexivity).
  fold ps. split; [apply orb_true_iff in H1 as [X|X]; apply ch_eqb_eq in X as ->; auto|]. split.
  { destruct ps as [|x ps]; [discriminate|]. exists x. left. reflexivity. }
  split. { intros x X. rewrite forallb_forall in H3. specialize (H3 _ X). apply andb_true_iff in H3 as [A B]. rewrite lower_bound_In in B by exact S. split; [|exact B]. intros ->. discriminate. }
  split; intros [= ->].
  - cbn in H. injection H as <-. auto.
  - cbn in H. apply bind_Ok in H as (u4 & H4 & H). apply guard_Ok in H4. injection H as <-. split; [intros X; rewrite X in H4; discriminate|].
    eexists. split; [reflexivity|]. split; [apply set_difference_sorted; assumption|]. intros x. rewrite set_difference_In by assumption. rewrite I. reflexivity.
Qed.

Lemma message_platforms_supplied me n m (st : message_steps me n m) : supplied n (T "platforms") (values_of (ms_p _ _ _ st) (L "platforms")).
Proof. apply message_supplied; [apply In_dec_eval; vm_compute; reflexivity|discriminate|apply mem_nIn; vm_compute; reflexivity]. Qed.
Lemma message_reuse_supplied me n m (st : message_steps me n m) : supplied n (T "reuse") (values_of (ms_p _ _ _ st) (L "reuse")).
Proof. apply message_supplied; [apply In_dec_eval; vm_compute; reflexivity|discriminate|apply mem_nIn; vm_compute; reflexivity]. Qed.
Lemma not_reused me n m (st : message_steps me n m) : supplied n (T "reuse") [] -> ms_m0 _ _ _ st = empty_message.
Proof.
  intros R. pose proof (supplied_det _ _ _ _ R (message_reuse_supplied _ _ _ st)) as E. pose proof (ms_reuse _ _ _ st) as H. unfold message_reuse in H.
  apply bind_Ok in H as (u & _ & H). rewrite find_values, <- E in H. cbn in H. injection H as <-. reflexivity.
Qed.
(** at any state of one schema all its messages report declared platforms *)
Definition plats_in (sc : schema) : preds := mkPreds (fun _ => True) (fun m => incl (m_platforms m) (sc_platforms sc)) (fun _ => True) (fun _ => True).
Lemma plats_later a b : later a b -> (forall f, q_field (plats_in a) f -> q_field (plats_in b) f) /\ (forall f, q_message (plats_in a) f -> q_message (plats_in b) f) /\
  (forall f, q_iface (plats_in a) f -> q_iface (plats_in b) f) /\ (forall f, q_frame (plats_in a) f -> q_frame (plats_in b) f).
Proof. intros [_ L]. cbn. split; [auto|]. split; [|auto]. intros m H x X. auto. Qed.
Lemma single_cur s : (length (pr_schemas s) <= 1)%nat -> (pr_cur s < length (pr_schemas s))%nat -> pr_schemas s = [cur_schema s].
Proof. unfold cur_schema. destruct (pr_schemas s) as [|x [|]]; cbn; intros; try lia. destruct (pr_cur s); [reflexivity|lia]. Qed.
Lemma plats_good s : state_ok plats_in false s -> (pr_cur s < length (pr_schemas s))%nat -> good (plats_in (cur_schema s)) (menv_of s).
Proof.
  intros H Lt. split; [exact (fun _ _ _ => I)|]. split; [|split; exact (fun _ _ _ => I)]. intros n m P. apply message_parse_steps in P as [st _].
  pose proof (nth_all _ false s (pr_cur s) H) as [_ Srt]. fold (cur_schema s) in Srt.
  assert (O : incl (m_platforms (ms_m0 _ _ _ st)) (sc_platforms (cur_schema s))).
  { destruct (message_reuse_inv _ _ _ (ms_reuse _ _ _ st)) as [-> | (v & k & _ & Hk & _ & -> & _)]; [intros x []|]. cbn [menv_of me_msg] in Hk.
    apply find_sound in Hk as (i & sc & path & name & nn & _ & Hi & _ & Hn & F). apply kfind_In in F as (k' & F & _).
    rewrite (single_cur s (st_single _ _ s H eq_refl) Lt) in Hi. destruct i as [|i]; [|destruct i; discriminate]. injection Hi as <-.
    pose proof (nth_all _ false s (pr_cur s) H) as [A _]. fold (cur_schema s) in A. pose proof (namespace_all _ _ _ _ A Hn) as B. inversion B as [? _ M _ _ _]; subst.
    exact (M _ _ F). }
  pose proof (platforms_result _ _ _ _ (ms_platforms _ _ _ st) Srt) as R. destruct (find_prop _ _) as [v|]; [|cbn; rewrite R; exact O].
  destruct R as (w & V & _ & D & Pl & Mi). cbn. destruct V as [-> | ->].
  - intros x X. apply (Pl eq_refl) in X. apply D. exact X.
  - destruct (Mi eq_refl) as (_ & r & -> & _ & Hr). intros x X. apply in_app_or in X as [X|X]; [auto|]. apply Hr in X. apply X.
Qed.
