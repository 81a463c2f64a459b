(** Facts for C68: aliases. *)
From Coq Require Import ZArith List Bool Ascii Lia.
From Verif.Model Require Import Base Common Xml Units Field FieldCommon IntField EnumField SetField FloatField OptCond Composite Message Frame Protocol.
From Verif.Spec Require Import Texts Ints Versions IntSpec XmlSpec FieldSpec CondSpec ProtocolSpec RefSpec DslSpec AttrSpec AliasSpec.
From Verif.Proofs Require Import BaseFacts CommonFacts XmlFacts FieldInv FieldFacts ProtocolFacts PlatFacts AttrFacts GroundFacts GroundMsg OwnFacts TreeFacts.
Import ListNotations.
Local Open Scope Z_scope.
Local Open Scope list_scope.

Definition nodot_end (s : str) : Prop := last s " "%char <> "."%char.
Lemma last_suffix (a b : str) d : b <> [] -> last (a ++ "."%char :: b) d = last b d.
Proof.
  intros N. induction a as [|x a IH].
  - destruct b; [contradiction|reflexivity].
  - cbn [app]. rewrite <- IH. destruct (a ++ "."%char :: b) eqn:E; [|reflexivity]. now destruct a.
Qed.
Lemma nodot_suffix a b : nodot_end (a ++ "."%char :: b) -> b <> [] /\ nodot_end b.
Proof.
  intros H. assert (N : b <> []). { intros ->. apply H. rewrite last_last. reflexivity. }
  split; [exact N|]. unfold nodot_end in *. now rewrite last_suffix in H.
Qed.
Lemma ref_nodot r : parseIsValidRefName r = true -> nodot_end r.
Proof.
  unfold parseIsValidRefName, nodot_end. destruct r as [|c r]; [discriminate|]. destruct (ch_eqb c c_schema).
  - destruct r as [|d r]; [discriminate|]. intros H. apply andb_true_iff in H as [H _]. apply andb_true_iff in H as [_ H].
    apply negb_true_iff in H. change (last (c :: d :: r) " "%char) with (last (d :: r) " "%char). intro E. rewrite E in H. discriminate.
  - intros H. apply andb_true_iff in H as [H _]. apply andb_true_iff in H as [_ H].
    apply negb_true_iff in H. intro E. rewrite E in H. discriminate.
Qed.

Lemma first_seg_cases s first rest : first_seg s = (first, rest) ->
  (rest = None /\ s = first) \/ exists r, rest = Some r /\ s = first ++ "."%char :: r.
Proof.
  unfold first_seg. destruct (split_at "." s) as [[a b]|] eqn:E; injection 1 as <- <-; [|auto].
  apply split_at_spec in E as [-> _]. right. eauto.
Qed.

Lemma reaches_incl fs fs' path g : incl fs fs' -> reaches fs path g -> reaches fs' path g.
Proof. intros I H. destruct H; [apply rc_here|eapply rc_bundle|eapply rc_bitfield]; eauto. Qed.
Lemma reaches_clone fs path g : reaches fs path g -> reaches (map clone fs) path (clone g).
Proof.
  induction 1 as [fs f H|fs c ms als vc rest g H R IH|fs c en ms vc rest g H R IH].
  - rewrite <- clone_name. apply rc_here. now apply in_map.
  - eapply rc_bundle; [|exact IH]. apply (in_map clone) in H. exact H.
  - eapply rc_bitfield; [|exact IH]. apply (in_map clone) in H. exact H.
Qed.
Lemma verify_aliased_spec f : forall name, verify_aliased f name = true -> name <> [] -> nodot_end name ->
  exists ms g, reaches ms name g /\ ((exists c als vc, f = FBundle c ms als vc) \/ (exists c en vc, f = FBitfield c en ms vc)).
Proof.
  induction f as [f IH] using field_ind'. intros name H N D.
  assert (M : forall ms first rest, (forall m, In m ms -> forall name, verify_aliased m name = true -> name <> [] -> nodot_end name ->
      exists ms g, reaches ms name g /\ ((exists c als vc, m = FBundle c ms als vc) \/ (exists c en vc, m = FBitfield c en ms vc))) ->
    first_seg name = (first, rest) ->
    (fix go (ms : list field) : bool :=
         match ms with
         | [] => false
         | m :: ms' => if str_eqb first (f_name m)
                       then match rest with None => true | Some r => verify_aliased m r end
                       else go ms'
         end) ms = true -> exists g, reaches ms name g).
  { intros ms first rest. induction ms as [|m ms IHm]; intros X E G; [discriminate|].
    destruct (str_eqb first (f_name m)) eqn:Q.
    - apply str_eqb_eq in Q. apply first_seg_cases in E as [[-> ->]|(r & -> & ->)].
      + rewrite Q. exists m. apply rc_here. now left.
      + apply nodot_suffix in D as [Nr Dr]. destruct (X m (or_introl eq_refl) r G Nr Dr) as (ms' & g & R & [(c & als & vc & ->)|(c & en & vc & ->)]).
        * exists g. rewrite Q. eapply rc_bundle; [left; reflexivity|exact R].
        * exists g. rewrite Q. eapply rc_bitfield; [left; reflexivity|exact R].
    - destruct IHm as (g & R); [|exact E|exact G|].
      + intros m' I. apply X. now right.
      + exists g. eapply reaches_incl; [|exact R]. apply incl_tl, incl_refl. }
  rewrite Forall_forall in IH.
  destruct f; cbn [verify_aliased] in H; destruct (is_nil name) eqn:Z; try (destruct name; [contradiction|discriminate Z]); try discriminate H.
  - destruct (first_seg name) as [first rest] eqn:E. destruct (M ms first rest IH eq_refl H) as (g & R). exists ms, g. split; [exact R|]. right. eauto.
  - destruct (first_seg name) as [first rest] eqn:E. destruct (M ms first rest IH eq_refl H) as (g & R). exists ms, g. split; [exact R|]. left. eauto.
Qed.

Lemma same_member_name_spec a b : identifier a -> (same_member_name a b = true <-> same_first_case_ignored a b).
Proof.
  intros I. unfold same_first_case_ignored. destruct a as [|x a]; [destruct I as (c & r & E & _); discriminate|].
  destruct b as [|y b]; cbn [same_member_name].
  - split; [discriminate|]. intros [E|(u & v & t & _ & E & _)]; discriminate.
  - rewrite andb_true_iff, ch_eqb_eq, str_eqb_eq. split.
    + intros [A ->]. right. exists x, y, b. auto.
    + intros [E|(u & v & t & E1 & E2 & E3)]; [injection E as -> ->; auto|]. injection E1 as -> ->. injection E2 as -> ->. auto.
Qed.
Lemma existsb_false {A} (f : A -> bool) l : existsb f l = false <-> forall x, In x l -> f x = false.
Proof.
  split.
  - intros H x I. destruct (f x) eqn:E; [|reflexivity]. assert (existsb f l = true) by (apply existsb_exists; eauto). congruence.
  - intros H. destruct (existsb f l) eqn:E; [|reflexivity]. apply existsb_exists in E as (x & I & E). rewrite H in E; [discriminate|exact I].
Qed.

Lemma alias_verify_spec als fs a : alias_verify als fs a = true -> identifier (a_name a) -> nodot_end (a_fieldName a) ->
  (forall f, In f fs -> ~ same_first_case_ignored (a_name a) (f_name f)) /\
  (forall b, In b als -> ~ same_first_case_ignored (a_name a) (a_name b)) /\ has_target fs a.
Proof.
  intros H I D. unfold alias_verify in H. apply andb_true_iff in H as [H H3]. apply andb_true_iff in H as [H1 H2].
  apply negb_true_iff in H1, H2. rewrite existsb_false in H1. rewrite existsb_false in H2. split; [|split].
  - intros f F E. apply same_member_name_spec in E; [|exact I]. specialize (H1 f F). cbn beta in H1. congruence.
  - intros f F E. apply same_member_name_spec in E; [|exact I]. specialize (H2 f F). cbn beta in H2. congruence.
  - destruct (first_seg (a_fieldName a)) as [first rest] eqn:E. destruct (find_named first fs) as [f|] eqn:F; [|discriminate].
    apply find_named_In in F as [F Nf]. unfold has_target. apply first_seg_cases in E as [[-> E]|(r & -> & E)]; rewrite E.
    + exists f. rewrite <- Nf. now apply rc_here.
    + rewrite E in D. apply nodot_suffix in D as [Nr Dr]. destruct (verify_aliased_spec _ _ H3 Nr Dr) as (ms & g & R & [(c & al & vc & ->)|(c & en & vc & ->)]); exists g; rewrite <- Nf.
      * eapply rc_bundle; [exact F|exact R].
      * eapply rc_bitfield; [exact F|exact R].
Qed.
Lemma alias_parse_spec e m a : alias_parse e m = Ok a -> identifier (a_name a) /\ nodot_end (a_fieldName a) /\ alias_element e m a.
Proof.
  intros H. unfold alias_parse in H.
  apply bind_Ok in H as (p & Hp & H). apply bind_Ok in H as (name & Hn & H). apply bind_Ok in H as (u & Hv & H). apply guard_Ok in Hv.
  apply bind_Ok in H as (descr & Hd & H). apply bind_Ok in H as (f & Hf & H). destruct f as [|c r]; [discriminate|].
  apply bind_Ok in H as (u1 & Hc & H). apply guard_Ok, ch_eqb_eq in Hc. apply bind_Ok in H as (u2 & Hr & H). apply guard_Ok in Hr. injection H as <-.
  cbn [a_name a_fieldName a_description]. split; [now apply parseIsValidName_spec|]. split; [now apply ref_nodot|].
  assert (S : forall k, In k [L "name"; L "description"; L "field"] -> k <> [] -> supplied m k (values_of p k)) by (intros; eapply element_props_supplied; eassumption).
  assert (G : forall k v, In k [L "name"; L "description"; L "field"] -> k <> [] -> string_prop e p k true false [] = Ok v -> supplied m k [v]).
  { intros k v I N E. unfold string_prop in E. apply bind_Ok in E as (w & O & E). apply single_values in O as [_ O]. specialize (O eq_refl). specialize (S k I N).
    rewrite find_values in E. destruct (values_of p k) as [|x [|]]; try discriminate O. cbn in E. injection E as <-. exact S. }
  split; [|split].
  - apply G; [left; reflexivity|discriminate|exact Hn].
  - change "$"%char with c_sibling. rewrite <- Hc. apply G; [right; right; left; reflexivity|discriminate|exact Hf].
  - eapply given_text; [|exact Hd]. apply S; [right; left; reflexivity|discriminate].
Qed.

Definition names_fine (als : list alias) : Prop := proper_names als.
(** the loop that adds the aliases of an element *)
Lemma fop_app {A} (R : A -> A -> Prop) l x : ForallOrdPairs R l -> (forall y, In y l -> R y x) -> ForallOrdPairs R (l ++ [x]).
Proof.
  induction 1 as [|a l Ha Hl IH]; intros X; cbn [app]; [constructor; constructor|].
  constructor; [|apply IH; intros; apply X; now right]. apply Forall_app. split; [exact Ha|]. constructor; [apply X; now left|constructor].
Qed.
Lemma fop_filter {A} (R : A -> A -> Prop) h l : ForallOrdPairs R l -> ForallOrdPairs R (filter h l).
Proof.
  induction 1 as [|a l Ha Hl IH]; cbn; [constructor|]. destruct (h a); [|exact IH]. constructor; [|exact IH].
  rewrite Forall_forall in *. intros y Y. apply filter_In in Y. now apply Ha.
Qed.
Lemma same_first_sym a b : same_first_case_ignored a b -> same_first_case_ignored b a.
Proof. intros [->|(x & y & t & -> & -> & E)]; [now left|]. right. exists y, x, t. auto. Qed.
Lemma proper_filter h als : proper_names als -> proper_names (filter h als).
Proof.
  intros [A B]. split; [|now apply fop_filter]. rewrite Forall_forall in *. intros y Y. apply filter_In in Y. now apply A.
Qed.
Lemma proper_nil : proper_names [].
Proof. split; constructor. Qed.

Lemma add_loop e fs ns : forall als als',
  foldM (fun als m => a <- alias_parse e m ;; _ <- guard (alias_verify als fs a) ;; Ok (als ++ [a])) ns als = Ok als' ->
  proper_names als ->
  proper_names als' /\ exists own, als' = als ++ own /\ Forall2 (alias_element e) ns own /\ Forall (has_target fs) own /\ apart fs own.
Proof.
  induction ns as [|m ns IH]; intros als als' H P; cbn [foldM] in H.
  - injection H as <-. split; [exact P|]. exists []. rewrite app_nil_r. repeat split; try constructor. intros a f [].
  - apply bind_Ok in H as (als1 & H1 & H). apply bind_Ok in H1 as (a & Ha & H1). apply bind_Ok in H1 as (u & Hv & H1). apply guard_Ok in Hv. injection H1 as <-.
    apply alias_parse_spec in Ha as (I & D & W). destruct (alias_verify_spec _ _ _ Hv I D) as (V1 & V2 & V3).
    destruct (IH _ _ H) as (P' & own & -> & F & T & Ap).
    { destruct P as [P1 P2]. split; [apply Forall_app; split; [exact P1|constructor; [exact I|constructor]]|]. apply fop_app; [exact P2|].
      intros y Y E. apply (V2 y Y). now apply same_first_sym. }
    split; [exact P'|]. exists (a :: own). rewrite <- app_assoc. repeat split; try constructor; auto.
    intros b f [<-|B] Hf; [now apply V1|now apply Ap].
Qed.

Lemma filter_filter {A} (f g : A -> bool) l : filter f (filter g l) = filter (fun x => g x && f x) l.
Proof. induction l as [|x l IH]; [reflexivity|]. cbn. destruct (g x); cbn; [|exact IH]. now rewrite IH. Qed.
Lemma written_named n : elements_called (T "alias") (n_children n) (parseGetChildrenNamed n (L "alias")).
Proof.
  pose proof (elements_called_filter (L "alias") (n_children n) ltac:(discriminate)) as H.
  replace (parseGetChildrenNamed n (L "alias")) with (filter (fun c => str_eqb (n_name c) (L "alias")) (filter is_elem (n_children n))); [exact H|].
  rewrite filter_filter. unfold parseGetChildrenNamed, parseGetChildrenOf. apply filter_ext. intros c. cbn. now rewrite orb_false_r.
Qed.

(** aliases the element itself adds to those it starts from *)
Definition own_aliases (e : env) (n : node) (fs : list field) (als als' : list alias) : Prop :=
  exists own, als' = als ++ own /\ aliases_written e n own /\ Forall (has_target fs) own /\ apart fs own.
Lemma add_aliases_spec e n fs als als' : add_aliases e n fs als = Ok als' -> proper_names als -> proper_names als' /\ own_aliases e n fs als als'.
Proof.
  intros H P. unfold add_aliases in H. pose proof (written_named n) as W. destruct (parseGetChildrenNamed n (L "alias")) as [|m ns] eqn:E.
  - injection H as <-. split; [exact P|]. exists []. rewrite app_nil_r. repeat split; try constructor; [|intros a f []]. exists []. split; [exact W|constructor].
  - apply bind_Ok in H as (u & _ & H). apply add_loop in H as (P' & own & -> & F & X & Ap); [|exact P]. split; [exact P'|]. exists own. repeat split; auto. exists (m :: ns). auto.
Qed.
Lemma update_aliases_spec e n ms als0 als : update_aliases e n ms als0 = Ok als -> proper_names als0 ->
  proper_names als /\ own_aliases e n ms (filter (target_exists ms) als0) als.
Proof.
  intros H P. apply (add_aliases_spec e n ms (filter (target_exists ms) als0) als); [exact H|]. now apply proper_filter.
Qed.
Lemma target_exists_reaches fs a : target_exists fs a = true -> has_target fs a.
Proof.
  unfold target_exists, has_target. destruct (find_named (a_fieldName a) fs) as [f|] eqn:E; [|discriminate]. intros _. apply find_named_In in E as [I <-].
  exists f. now apply rc_here.
Qed.
Lemma filtered_targets fs als : Forall (has_target fs) (filter (target_exists fs) als).
Proof. apply Forall_forall. intros a A. apply filter_In in A as [_ A]. now apply target_exists_reaches. Qed.

(** ** fields *)
Definition bundle_fine (f : field) : Prop :=
  match f with FBundle _ ms als _ => proper_names als /\ Forall (has_target ms) als | _ => True end.
Lemma field_fine f : accepted f -> all bundle_fine f.
Proof.
  apply accepted_all.
  - intros g _. destruct g; cbn; auto. split; [apply proper_nil|constructor].
  - intros v g H. apply all_here in H. destruct g; exact H.
  - intros fuel e x n k p c0 old repl c g He Hf IH Hk Hp Hr Hold Hrep Hrp Hc Hkp Hv Hparts.
    destruct g; try exact I. pose proof (kind_parse_common _ _ _ _ _ _ _ _ _ _ _ Hkp) as [Kk _]. cbn [f_kind] in Kk. subst k.
    apply bundle_inv in Hkp as (ms' & als' & vc' & ms0 & als0 & E & _ & _ & _ & Hu & Ho & _); [|eapply reuse_old_ok; eassumption].
    injection E as -> -> -> ->. apply update_aliases_spec in Hu as (P & own & -> & W & X & _).
    + cbn. split; [exact P|]. apply Forall_app. split; [apply filtered_targets|exact X].
    + destruct Ho as [->|(c1 & m1 & v1 & ->)]; [apply proper_nil|]. specialize (Hold _ eq_refl). apply all_here in Hold. apply Hold.
Qed.

(** ** interfaces *)
Lemma has_target_incl fs fs' a : incl fs fs' -> has_target fs a -> has_target fs' a.
Proof. intros I (g & R). exists g. eapply reaches_incl; eassumption. Qed.
Lemma has_target_clone fs a : has_target fs a -> has_target (map clone fs) a.
Proof. intros (g & R). exists (clone g). now apply reaches_clone. Qed.
Lemma no_target a : ~ has_target [] a.
Proof. intros (g & R). remember [] as l. destruct R; subst; contradiction. Qed.
Lemma targets_nil als : Forall (has_target []) als -> als = [].
Proof. destruct als as [|a l]; [reflexivity|]. intros H. inversion H; subst. exfalso. eapply no_target; eassumption. Qed.
Lemma add_fields_incl e x ns : forall fs fs', add_fields e x ns fs = Ok fs' -> incl fs fs'.
Proof.
  unfold add_fields. induction ns as [|m ns IH]; intros fs fs' H; cbn [foldM] in H; [injection H as <-; apply incl_refl|].
  apply bind_Ok in H as (fs1 & H1 & H). apply bind_Ok in H1 as (f & _ & H1). apply bind_Ok in H1 as (u & _ & H1). injection H1 as <-.
  apply IH in H. eapply incl_tran; [|exact H]. apply incl_appl, incl_refl.
Qed.
Lemma copied_bundle_fine e v ms als : env_ok e -> copied_bundle e v = Ok (ms, als) -> proper_names als.
Proof.
  intros [_ F] H. unfold copied_bundle in H. apply bind_Ok in H as (u & _ & H). apply bind_Ok in H as (f & Hf & H). apply of_opt_Ok in Hf.
  destruct f; try discriminate. injection H as <- <-. apply F, field_fine, all_here in Hf. apply Hf.
Qed.
Lemma reuse_extras_aliases e p v als als' c : reuse_extras e p v als = Ok (als', c) -> als' = als \/ als' = [].
Proof.
  intros H. unfold reuse_extras in H. apply bind_Ok in H as (k & _ & H). apply bind_Ok in H as (u & _ & H). apply bind_Ok in H as (w & _ & H).
  injection H as <- _. destruct k; auto.
Qed.
Lemma copy_aliases_spec e p always fs src als als' : copy_aliases e p always fs src als = Ok als' ->
  als' = als \/ (exists l, src = Some l /\ als' = filter (target_exists fs) (als ++ l)) \/
  (src = None /\ als' = filter (target_exists fs) als).
Proof.
  intros H. unfold copy_aliases in H. apply bind_Ok in H as (u & _ & H). destruct (negb (alias_supported e)).
  - destruct (find_prop _ _); [discriminate|]. injection H as <-. auto.
  - apply bind_Ok in H as (c & _ & H). destruct (negb c); [injection H as <-; auto|]. destruct src as [l|].
    + injection H as <-. right. left. eauto.
    + destruct (find_prop _ _); [injection H as <-; auto|]. injection H as <-. destruct always; auto.
Qed.

Record iface_steps (me : menv) (n : node) (i : iface) := {
  is_p : props; is_i0 : iface; is_fs1 : list field; is_src : option (list alias); is_als : list alias;
  is_props : parseChildrenAsProps n iface_props true (parseNodeProps n) = Ok is_p;
  is_reuse : iface_reuse me is_p = Ok is_i0;
  is_copy : iface_copy me is_p (if_fields is_i0) = Ok (is_fs1, is_src);
  is_incl : incl is_fs1 (if_fields i);
  is_copied : copy_aliases (me_env me) is_p false (if_fields i) is_src (if_aliases is_i0) = Ok is_als;
  is_added : add_aliases (me_env me) n (if_fields i) is_als = Ok (if_aliases i) }.
Lemma iface_parse_steps me n i : iface_parse me n = Ok i -> exists st : iface_steps me n i, True.
Proof.
  intros H. unfold iface_parse in H.
  apply bind_Ok in H as (p & Hp & H). apply bind_Ok in H as (i0 & Hi & H). apply bind_Ok in H as (name & _ & H). apply bind_Ok in H as (u1 & _ & H).
  apply bind_Ok in H as (descr & _ & H). apply bind_Ok in H as ([fs src] & Hc & H). apply bind_Ok in H as (ns & Hn & H). apply bind_Ok in H as (fs2 & Hf & H).
  apply bind_Ok in H as (al & Ha & H). apply bind_Ok in H as (al' & Ha' & H). injection H as <-.
  unshelve eexists; [|exact I]. refine (Build_iface_steps me n (mkIface name descr fs2 al' (if_copyCodeFrom i0)) p i0 fs src al Hp Hi Hc _ Ha Ha'). cbn [if_fields].
  destruct ns as [ns|]; [|injection Hf as <-; apply incl_refl]. apply bind_Ok in Hf as (fs3 & Hf & H). apply bind_Ok in H as (u & _ & H). injection H as <-.
  eapply add_fields_incl; eassumption.
Qed.

Definition fine (fs : list field) (als : list alias) : Prop := proper_names als /\ Forall (has_target fs) als.
Lemma fine_nil fs : fine fs [].
Proof. split; [apply proper_nil|constructor]. Qed.
Lemma iface_start me n i (st : iface_steps me n i) : env_ok (me_env me) -> (forall s j, me_iface me s = Some j -> fine (if_fields j) (if_aliases j)) ->
  fine (if_fields i) (is_als _ _ _ st).
Proof.
  intros He IH. destruct st as [p i0 fs1 src als0 Hp Hr Hc Hi Ha Hd]. cbn [is_als].
  assert (F0 : fine (if_fields i0) (if_aliases i0)).
  { unfold iface_reuse in Hr. apply bind_Ok in Hr as (u & _ & Hr). destruct (find_prop p (L "reuse")) as [v|]; [|injection Hr as <-; apply fine_nil].
    destruct (negb _); [injection Hr as <-; apply fine_nil|]. apply bind_Ok in Hr as (j & Hj & Hr). apply of_opt_Ok in Hj.
    apply bind_Ok in Hr as ([al cp] & Hx & Hr). injection Hr as <-. cbn [if_fields if_aliases]. destruct (IH _ _ Hj) as [P T].
    apply reuse_extras_aliases in Hx as [->| ->]; [|apply fine_nil]. split; [exact P|]. eapply Forall_impl; [|exact T]. intros a. apply has_target_clone. }
  unfold iface_copy in Hc. apply bind_Ok in Hc as (u & _ & Hc). destruct (find_prop p (L "copyFieldsFrom")) as [v|].
  - apply bind_Ok in Hc as (u' & N & Hc). apply guard_Ok in N. assert (E : if_fields i0 = []) by (destruct (if_fields i0); [reflexivity|discriminate]).
    rewrite E in F0. destruct F0 as [_ F0]. apply targets_nil in F0. rewrite F0 in Ha.
    assert (X : exists l, src = Some l /\ proper_names l).
    { destruct (me_iface me v) as [j|] eqn:Hj; [injection Hc as <- <-; eexists; split; [reflexivity|apply (IH _ _ Hj)]|].
      apply bind_Ok in Hc as ([ms al] & Hb & Hc). injection Hc as <- <-. eexists. split; [reflexivity|]. eapply copied_bundle_fine; eassumption. }
    destruct X as (l & -> & Pl). apply copy_aliases_spec in Ha as [->|[(l' & E' & ->)|(E' & _)]]; [apply fine_nil| |discriminate].
    injection E' as <-. split; [apply proper_filter; exact Pl|apply filtered_targets].
  - injection Hc as <- <-. destruct F0 as [P T].
    assert (T' : Forall (has_target (if_fields i)) (if_aliases i0)) by (eapply Forall_impl; [|exact T]; intros a; apply has_target_incl; exact Hi).
    apply copy_aliases_spec in Ha as [->|[(l' & E' & ->)|(E' & ->)]]; [split; assumption|discriminate|]. split; [apply proper_filter; exact P|apply filtered_targets].
Qed.
Lemma fine_add e n fs als als' : add_aliases e n fs als = Ok als' -> fine fs als -> fine fs als' /\ own_aliases e n fs als als'.
Proof.
  intros H [P T]. apply add_aliases_spec in H as [P' O]; [|exact P]. split; [|exact O]. split; [exact P'|]. destruct O as (own & -> & _ & X & _).
  apply Forall_app. auto.
Qed.
Lemma iface_fine i : accepted_iface i -> fine (if_fields i) (if_aliases i).
Proof.
  induction 1 as [me n i He Hi IH H]. apply iface_parse_steps in H as [st _]. pose proof (iface_start _ _ _ st He IH) as F.
  apply (fine_add _ _ _ _ _ (is_added _ _ _ st) F).
Qed.

(** ** messages *)
Definition msg_fine (m : message) : Prop :=
  proper_names (m_aliases m) /\ (m_fields m = [] -> m_aliases m = []) /\
  (forall a, In a (m_aliases m) -> plain (a_fieldName a) -> In (a_fieldName a) (map f_name (m_fields m))).
Lemma plain_target fs a : has_target fs a -> plain (a_fieldName a) -> In (a_fieldName a) (map f_name fs).
Proof.
  intros (g & R) P. remember (a_fieldName a) as path. clear Heqpath. destruct R as [fs f F|fs c ms als vc rest g F R|fs c en ms vc rest g F R].
  - now apply in_map.
  - exfalso. apply P. apply in_or_app. right. now left.
  - exfalso. apply P. apply in_or_app. right. now left.
Qed.
Lemma named_target fs a : In (a_fieldName a) (map f_name fs) -> has_target fs a.
Proof. intros H. apply in_map_iff in H as (f & E & I). exists f. rewrite <- E. now apply rc_here. Qed.
Lemma target_exists_In fs a : target_exists fs a = true -> In (a_fieldName a) (map f_name fs).
Proof.
  unfold target_exists. destruct (find_named (a_fieldName a) fs) as [f|] eqn:E; [|discriminate]. intros _. apply find_named_In in E as [I <-]. now apply in_map.
Qed.
Lemma replace_first_names fs f fs' : replace_first fs f = Some fs' -> map f_name fs' = map f_name fs.
Proof.
  revert fs'. induction fs as [|g fs IH]; intros fs' H; cbn in H; [discriminate|].
  destruct (str_eqb (f_name f) (f_name g)) eqn:E.
  - injection H as <-. apply str_eqb_eq in E. cbn. now rewrite E.
  - destruct (replace_first fs f) as [l|]; [|discriminate]. injection H as <-. cbn. f_equal. now apply IH.
Qed.
Lemma message_replace_names e x n fs fs' : message_replace e x n fs = Ok fs' -> map f_name fs' = map f_name fs.
Proof.
  unfold message_replace. intros H. destruct (parseGetChildrenNamed n (L "replace")) as [|r [|]]; [injection H as <-; reflexivity| |discriminate].
  destruct (negb _); [injection H as <-; reflexivity|]. destruct (parseGetChildrenOf r all_types false) as [|c [|]]; try discriminate.
  apply bind_Ok in H as (f & _ & H). apply bind_Ok in H as (u & _ & H). apply of_opt_Ok in H. eapply replace_first_names; eassumption.
Qed.
Lemma message_fields_incl e x n vml fs fs' : message_fields e x n vml fs = Ok fs' -> incl fs fs'.
Proof.
  unfold message_fields. intros H. apply bind_Ok in H as ([ns|] & _ & H); [|injection H as <-; apply incl_refl].
  apply bind_Ok in H as (fs3 & Ha & H). apply bind_Ok in H as (u & _ & H). apply bind_Ok in H as (u' & _ & H). injection H as <-. eapply add_fields_incl; eassumption.
Qed.
Lemma message_reuse_fine me p m0 : message_reuse me p = Ok m0 -> (forall s k, me_msg me s = Some k -> msg_fine k) -> msg_fine m0.
Proof.
  intros Hr IH. assert (E0 : msg_fine empty_message) by (split; [apply proper_nil|split; [reflexivity|intros a []]]).
  unfold message_reuse in Hr. apply bind_Ok in Hr as (u & _ & Hr). destruct (find_prop p (L "reuse")) as [v|]; [|injection Hr as <-; exact E0].
  destruct (negb _); [injection Hr as <-; exact E0|]. apply bind_Ok in Hr as (j & Hj & Hr). apply of_opt_Ok in Hj.
  apply bind_Ok in Hr as ([al cp] & Hx & Hr). injection Hr as <-. destruct (IH _ _ Hj) as (P & N & T). unfold msg_fine. cbn [m_fields m_aliases].
  apply reuse_extras_aliases in Hx as [->| ->]; [|split; [apply proper_nil|split; [reflexivity|intros a []]]]. split; [exact P|]. split.
  - intros E. apply N. now destruct (m_fields j).
  - intros a A B. rewrite map_map. rewrite (map_ext _ f_name); [now apply T|]. intros f. apply clone_name.
Qed.
Lemma map_nil_iff {A B C} (f : A -> C) (g : B -> C) l l' : map f l = map g l' -> l = [] -> l' = [].
Proof. intros E ->. now destruct l'. Qed.
Lemma message_copied me n m (st : message_steps me n m) : env_ok (me_env me) -> (forall s k, me_msg me s = Some k -> msg_fine k) ->
  forall als, copy_aliases (me_env me) (ms_p _ _ _ st) true (m_fields m) (ms_src _ _ _ st) (m_aliases (ms_m0 _ _ _ st)) = Ok als ->
  proper_names als /\ (m_fields m = [] -> als = []) /\
  (forall a, In a als -> plain (a_fieldName a) -> In (a_fieldName a) (map f_name (m_fields m))) /\
  (ms_m0 _ _ _ st = empty_message -> Forall (has_target (m_fields m)) als).
Proof.
  intros He IH als Ha. pose proof (message_reuse_fine _ _ _ (ms_reuse _ _ _ st) IH) as (P & N & T).
  pose proof (ms_copy _ _ _ st) as Hc. pose proof (message_replace_names _ _ _ _ _ (ms_replace _ _ _ st)) as Hr. pose proof (message_fields_incl _ _ _ _ _ _ (ms_fields _ _ _ st)) as Hi.
  set (m0 := ms_m0 _ _ _ st) in *. set (p := ms_p _ _ _ st) in *. set (fs1 := ms_fs1 _ _ _ st) in *. set (fs2 := ms_fs2 _ _ _ st) in *. set (src := ms_src _ _ _ st) in *. clearbody m0 p fs1 fs2 src. clear st.
  assert (Fl : forall l, proper_names l -> proper_names (filter (target_exists (m_fields m)) l) /\ (m_fields m = [] -> filter (target_exists (m_fields m)) l = []) /\
    (forall a, In a (filter (target_exists (m_fields m)) l) -> plain (a_fieldName a) -> In (a_fieldName a) (map f_name (m_fields m))) /\
    (m0 = empty_message -> Forall (has_target (m_fields m)) (filter (target_exists (m_fields m)) l))).
  { intros l Pl. split; [now apply proper_filter|]. split; [|split; [|intros _; apply filtered_targets]].
    - intros E. rewrite E. clear. induction l as [|a l IH]; [reflexivity|]. exact IH.
    - intros a A _. apply filter_In in A as [_ A]. now apply target_exists_In. }
  unfold message_copy in Hc. apply bind_Ok in Hc as (u & _ & Hc). destruct (find_prop p (L "copyFieldsFrom")) as [v|].
  - apply bind_Ok in Hc as (u' & Nn & Hc). apply guard_Ok in Nn. assert (E : m_fields m0 = []) by (destruct (m_fields m0); [reflexivity|discriminate]).
    rewrite (N E) in Ha. apply bind_Ok in Hc as ([gs l] & Hg & Hc). injection Hc as _ <-.
    assert (Pl : proper_names l).
    { destruct (me_msg me v) as [j|] eqn:Hj; [injection Hg as <- <-; apply (IH _ _ Hj)|]. eapply copied_bundle_fine; eassumption. }
    apply copy_aliases_spec in Ha as [->|[(l' & E' & ->)|(E' & _)]]; [|injection E' as <-; apply Fl; exact Pl|discriminate].
    split; [apply proper_nil|]. split; [reflexivity|]. split; [intros a []|constructor].
  - injection Hc as <- <-. apply copy_aliases_spec in Ha as [->|[(l' & E' & ->)|(E' & ->)]]; [|discriminate|apply Fl; exact P].
    split; [exact P|]. split; [|split].
    + intros E. apply N. rewrite E in Hi. assert (E2 : fs2 = []) by (destruct fs2 as [|y l]; [reflexivity|destruct (Hi y (or_introl eq_refl))]). subst fs2. now destruct (m_fields m0).
    + intros a A B. specialize (T a A B). rewrite <- Hr in T. apply in_map_iff in T as (f & Ef & If). rewrite <- Ef. apply in_map. now apply Hi.
    + intros ->. constructor.
Qed.
Lemma message_fine m : accepted_message m -> msg_fine m.
Proof.
  induction 1 as [me n m He Hi Hm IH H]. apply message_parse_steps in H as [st _]. destruct (ms_aliases _ _ _ st) as (als & Ha & Hd).
  destruct (message_copied _ _ _ st He IH als Ha) as (P & N & T & _). apply add_aliases_spec in Hd as [P' (own & E & _ & X & _)]; [|exact P].
  split; [exact P'|]. rewrite E. split.
  - intros Z. rewrite (N Z). rewrite Z in X. now rewrite (targets_nil _ X).
  - intros a A B. apply in_app_or in A as [A|A]; [now apply T|]. rewrite Forall_forall in X. apply plain_target; auto.
Qed.
Lemma derived_fine f : derived f -> all bundle_fine f.
Proof.
  assert (C : forall g, all bundle_fine g -> bundle_fine (clone g)) by (intros g _; destruct g; cbn; auto; split; [apply proper_nil|constructor]).
  assert (B : forall v g, all bundle_fine g -> bundle_fine (bump_since v g)) by (intros v g H; apply all_here in H; destruct g; exact H).
  induction 1 as [f H|f g H IH I|f H IH|v f H IH]; [now apply field_fine|eapply all_parts; eassumption|now apply all_clone|now apply all_bump].
Qed.

(** ** what the aliases of an element are *)
Lemma bundle_aliases e x n c ms als vc : parse_field e x n = Ok (FBundle c ms als vc) -> exists old als0, reuses e n old /\
  (als0 = [] \/ exists c' ms' vc', old = Some (FBundle c' ms' als0 vc')) /\
  (available 3 (e_dsl e) -> supplied n (T "reuseAliases") [] -> forall c' ms' als' vc', old = Some (FBundle c' ms' als' vc') -> als0 = als') /\
  update_aliases e n ms als0 = Ok als.
Proof.
  intros H. unfold parse_field in H. apply field_parse_inv in H as (fuel' & k & p & c0 & old & repl & c1 & _ & Hk & Hp & Hr & _ & _ & Hkp & _).
  pose proof (kind_parse_common _ _ _ _ _ _ _ _ _ _ _ Hkp) as [Kk _]. cbn [f_kind] in Kk. subst k.
  exists old. pose proof (reuse_facts _ _ _ _ _ _ _ Hp Hr) as [Ru _]. pose proof (reuse_old_ok _ _ _ _ _ _ Hr) as Ho.
  unfold kind_parse in Hkp. apply bind_Ok in Hkp as (ra & Hra & H).
  assert (Ra : available 3 (e_dsl e) -> supplied n (T "reuseAliases") [] -> old <> None -> ra = true).
  { intros A S N. destruct old as [o|]; [|contradiction]. replace (alias_supported e) with true in Hra by (symmetry; now apply avail).
    unfold bool_prop in Hra. apply bind_Ok in Hra as (u & _ & Hra).
    assert (V : values_of p (L "reuseAliases") = []).
    { eapply supplied_det; [|exact S]. eapply extra_supplied; [exact Hp|reflexivity|reflexivity|reflexivity]. }
    rewrite find_values, V in Hra. cbn in Hra. now injection Hra as <-. }
  destruct old as [o|].
  - specialize (Ho o eq_refl). destruct o; try discriminate Ho. exists (if ra then als0 else []). split; [exact Ru|]. split; [destruct ra; eauto 6|]. split.
    + intros A S c' ms' als' vc' E. rewrite (Ra A S); [congruence|discriminate].
    + apply bind_Ok in H as (ms1 & _ & H). unfold bundle_parse in H. apply bind_Ok in H as (ms2 & _ & H). apply bind_Ok in H as (u & _ & H). apply bind_Ok in H as (al & Ha & H).
      apply bind_Ok in H as (v & _ & H). injection H as <- <- <- <-. exact Ha.
  - exists []. split; [exact Ru|]. split; [auto|]. split; [intros; discriminate|].
    apply bind_Ok in H as (ms1 & _ & H). unfold bundle_parse in H. apply bind_Ok in H as (ms2 & _ & H). apply bind_Ok in H as (u & _ & H). apply bind_Ok in H as (al & Ha & H).
    apply bind_Ok in H as (v & _ & H). injection H as <- <- <- <-. exact Ha.
Qed.
