(** [validate_elems] for fields, messages, interfaces and frames. *)
From Coq Require Import Sorting.Sorted Sorting.Permutation.
From Verif.Model Require Import Base Common Xml Units Field FieldCommon IntField EnumField SetField FloatField OptCond Composite Message Frame Protocol.
From Verif.Spec Require Import Texts IntSpec XmlSpec FieldSpec ProtocolSpec DeclSpec.
From Verif.Proofs Require Import BaseFacts CommonFacts RangeFacts IntInv CondFacts XmlFacts FieldInv FieldFacts MapFacts ProtocolFacts RefFacts DeclFacts.

Section Fold.
Context {A : Type} (get : nspace -> list (str * A)) (parsed : node -> A -> Prop).
Definition adds (c : list node) (ns ns' : nspace) : Prop :=
  exists ms, Forall2 parsed c ms /\ Permutation (map snd (get ns')) (map snd (get ns) ++ ms).
Lemma adds_nil ns ns' : get ns' = get ns -> adds [] ns ns'.
Proof. intros E. exists []. split; [constructor|]. rewrite app_nil_r, E. reflexivity. Qed.
Lemma adds_app a b x y z : adds a x y -> adds b y z -> adds (a ++ b) x z.
Proof.
  intros (m & F & P) (m' & F' & P'). exists (m ++ m'). split; [apply Forall2_app; assumption|]. rewrite P', P, app_assoc. reflexivity.
Qed.
(** each element of the list adds one / none *)
Lemma fold_adds (def : nspace -> node -> res nspace) (keep : nspace -> Prop) l : (forall a b a', keep a -> def a b = Ok a' -> keep a' /\ adds [b] a a') ->
  forall ns ns', keep ns -> foldM def l ns = Ok ns' -> adds l ns ns'.
Proof.
  intros H. induction l as [|b l IH]; intros ns ns' K E.
  - injection E as <-. apply adds_nil. reflexivity.
  - cbn [foldM] in E. apply bind_Ok in E as (x & Ex & E). apply H in Ex as [Kx Ax]; [|exact K]. apply (adds_app [b] l ns x ns' Ax). eapply IH; eassumption.
Qed.
Lemma fold_none (def : nspace -> node -> res nspace) l : (forall a b a', def a b = Ok a' -> get a' = get a) ->
  forall ns ns', foldM def l ns = Ok ns' -> get ns' = get ns.
Proof.
  intros H. induction l as [|b l IH]; intros ns ns' E.
  - injection E as <-. reflexivity.
  - cbn [foldM] in E. apply bind_Ok in E as (x & Ex & E). apply H in Ex. apply IH in E. congruence.
Qed.
Lemma define_all_none name (def : nspace -> node -> res nspace) ns c ns' : (forall a b a', def a b = Ok a' -> get a' = get a) ->
  define_all name def ns c = Ok ns' -> get ns' = get ns.
Proof. intros H. unfold define_all. apply fold_none. intros a b a' X. apply bind_Ok in X as (u & _ & X). eauto. Qed.
Lemma define_all_adds name (def : nspace -> node -> res nspace) (keep : nspace -> Prop) ns c ns' : (forall a b a', keep a -> def a b = Ok a' -> keep a' /\ adds [b] a a') -> keep ns ->
  define_all name def ns c = Ok ns' -> adds (parseGetChildren c) ns ns'.
Proof. intros H K. unfold define_all. apply fold_adds with (keep := keep); [|exact K]. intros a b a' Ka X. apply bind_Ok in X as (u & _ & X). eauto. Qed.
End Fold.
Lemma children_filter nm a cs : parseGetChildren (Elem nm a cs) = filter is_elem cs.
Proof.
  unfold parseGetChildren, parseGetChildrenOf. cbn [n_children]. apply filter_ext. intros c. cbn. rewrite andb_true_r. reflexivity.
Qed.
Section Kinds.
Variable mk : nspace -> menv.
Lemma df_inv ns n ns' : define_field mk ns n = Ok ns' -> exists f, parse_field (me_env (mk ns)) (mkCtx PNamespace 0 not_deprecated) n = Ok f /\ ns_find_field ns (f_name f) = None /\ ns' = put_field f ns.
Proof.
  unfold define_field. intros H. apply bind_Ok in H as (f & Hf & H). apply bind_Ok in H as (u & _ & H). destruct (ns_find_field _ _) eqn:E; [discriminate|]. injection H as <-. eauto.
Qed.
Lemma dm_inv ns n ns' : define_message mk ns n = Ok ns' -> exists f, message_parse (mk ns) n = Ok f /\ ns_find_message ns (m_name f) = None /\ ns' = put_message f ns.
Proof. unfold define_message. intros H. apply bind_Ok in H as (f & Hf & H). destruct (ns_find_message _ _) eqn:E; [discriminate|]. injection H as <-. eauto. Qed.
Lemma di_inv ns n ns' : define_iface mk ns n = Ok ns' -> exists f, iface_parse (mk ns) n = Ok f /\ ns_find_iface ns (if_name f) = None /\ ns' = put_iface f ns.
Proof. unfold define_iface. intros H. apply bind_Ok in H as (f & Hf & H). destruct (ns_find_iface _ _) eqn:E; [discriminate|]. injection H as <-. eauto. Qed.
Lemma dr_inv ns n ns' : define_frame mk ns n = Ok ns' -> exists f, frame_parse (mk ns) n = Ok f /\ ns_find_frame ns (fr_name f) = None /\ ns' = put_frame f ns.
Proof. unfold define_frame. intros H. apply bind_Ok in H as (f & Hf & H). destruct (ns_find_frame _ _) eqn:E; [discriminate|]. injection H as <-. eauto. Qed.

(** [m]: invariant of the environment while the namespace [ns0] is processed *)
Variable ns0 : nspace.
Hypothesis mk_ok : mk_good_fixed ns0 mk.
Let keep (x : nspace) : Prop := keeps ns0 x.
Lemma df_adds a b a' : keep a -> define_field mk a b = Ok a' -> keep a' /\ adds ns_fields field_of [b] a a'.
Proof.
  intros K H. pose proof (mk_ok _ K) as M. split; [eapply keeps_trans; [exact K|]; eapply define_field_ok; [exact M|apply K|exact H]|].
  apply df_inv in H as (f & Hf & Hn & ->). exists [f]. split.
  - constructor; [|constructor]. exists (me_env (mk a)). split; [apply M|exact Hf].
  - destruct a. apply kput_perm_snd. exact Hn.
Qed.
Lemma dm_adds a b a' : keep a -> define_message mk a b = Ok a' -> keep a' /\ adds ns_messages message_of [b] a a'.
Proof.
  intros K H. pose proof (mk_ok _ K) as M. split; [eapply keeps_trans; [exact K|]; eapply define_message_ok; [exact M|apply K|exact H]|].
  apply dm_inv in H as (f & Hf & Hn & ->). exists [f]. split.
  - constructor; [|constructor]. exists (mk a). split; [apply M|exact Hf].
  - destruct a. apply kput_perm_snd. exact Hn.
Qed.
Lemma di_adds a b a' : keep a -> define_iface mk a b = Ok a' -> keep a' /\ adds ns_ifaces iface_of [b] a a'.
Proof.
  intros K H. pose proof (mk_ok _ K) as M. split; [eapply keeps_trans; [exact K|]; eapply define_iface_ok; [exact M|apply K|exact H]|].
  apply di_inv in H as (f & Hf & Hn & ->). exists [f]. split.
  - constructor; [|constructor]. exists (mk a). split; [apply M|exact Hf].
  - destruct a. apply kput_perm_snd. exact Hn.
Qed.
Lemma dr_adds a b a' : keep a -> define_frame mk a b = Ok a' -> keep a' /\ adds ns_frames frame_of [b] a a'.
Proof.
  intros K H. pose proof (mk_ok _ K) as M. split; [eapply keeps_trans; [exact K|]; eapply define_frame_ok; [exact M|apply K|exact H]|].
  apply dr_inv in H as (f & Hf & Hn & ->). exists [f]. split.
  - constructor; [|constructor]. exists (mk a). split; [apply M|exact Hf].
  - destruct a. apply kput_perm_snd. exact Hn.
Qed.
Lemma field_get a b a' : define_field mk a b = Ok a' -> ns_messages a' = ns_messages a /\ ns_ifaces a' = ns_ifaces a /\ ns_frames a' = ns_frames a.
Proof. intros H. apply df_inv in H as (f & _ & _ & ->). destruct a. auto. Qed.
Lemma message_get a b a' : define_message mk a b = Ok a' -> ns_fields a' = ns_fields a /\ ns_ifaces a' = ns_ifaces a /\ ns_frames a' = ns_frames a.
Proof. intros H. apply dm_inv in H as (f & _ & _ & ->). destruct a. auto. Qed.
Lemma iface_get a b a' : define_iface mk a b = Ok a' -> ns_fields a' = ns_fields a /\ ns_messages a' = ns_messages a /\ ns_frames a' = ns_frames a.
Proof. intros H. apply di_inv in H as (f & _ & _ & ->). destruct a. auto. Qed.
Lemma frame_get a b a' : define_frame mk a b = Ok a' -> ns_fields a' = ns_fields a /\ ns_messages a' = ns_messages a /\ ns_ifaces a' = ns_ifaces a.
Proof. intros H. apply dr_inv in H as (f & _ & _ & ->). destruct a. auto. Qed.

Ltac none := apply adds_nil;
  first [ eapply define_all_none; [|eassumption] | eapply fold_none; [|eassumption] | idtac ];
  try (intros ? ? ?);
  try (let X := fresh in intros X);
  match goal with
  | H : define_field mk _ _ = Ok _ |- _ => apply field_get in H
  | H : define_message mk _ _ = Ok _ |- _ => apply message_get in H
  | H : define_iface mk _ _ = Ok _ |- _ => apply iface_get in H
  | H : define_frame mk _ _ = Ok _ |- _ => apply frame_get in H
  end; tauto.
Ltac cases H E :=
  cbn [ns_child n_name] in H, E; rewrite E in H; cbn [items];
  repeat match type of H with
  | (if str_eqb ?a ?b then _ else _) = _ => let F := fresh in destruct (str_eqb a b) eqn:F; [apply str_eqb_eq in F; subst a|]
  end; [..|discriminate].
Lemma plain_fields c ns' : str_eqb (n_name c) (L "ns") = false -> ns_ok ns0 -> ns_child mk ns0 c = Ok ns' -> adds ns_fields field_of (items None (L "fields") c) ns0 ns'.
Proof.
  intros E O H. assert (K : keep ns0) by (apply keeps_refl; exact O). destruct c as [nm a cs|t|]; [|discriminate..]. cases H E.
  - change (adds ns_fields field_of (filter is_elem cs) ns0 ns'). rewrite <- (children_filter (L "fields") a cs).
    eapply fold_adds with (keep := keep); [apply df_adds|exact K|exact H].
  - none. - none. - none. - none. - none. - none.
Qed.
Lemma plain_messages c ns' : str_eqb (n_name c) (L "ns") = false -> ns_ok ns0 -> ns_child mk ns0 c = Ok ns' -> adds ns_messages message_of (items (Some (L "message")) (L "messages") c) ns0 ns'.
Proof.
  intros E O H. assert (K : keep ns0) by (apply keeps_refl; exact O). destruct c as [nm a cs|t|]; [|discriminate..]. cases H E.
  - none.
  - apply dm_adds; assumption.
  - change (adds ns_messages message_of (filter is_elem cs) ns0 ns'). rewrite <- (children_filter (L "messages") a cs).
    eapply define_all_adds with (keep := keep); [apply dm_adds|exact K|exact H].
  - none. - none. - none. - none.
Qed.
Lemma plain_frames c ns' : str_eqb (n_name c) (L "ns") = false -> ns_ok ns0 -> ns_child mk ns0 c = Ok ns' -> adds ns_frames frame_of (items (Some (L "frame")) (L "frames") c) ns0 ns'.
Proof.
  intros E O H. assert (K : keep ns0) by (apply keeps_refl; exact O). destruct c as [nm a cs|t|]; [|discriminate..]. cases H E.
  - none. - none. - none.
  - apply dr_adds; assumption.
  - change (adds ns_frames frame_of (filter is_elem cs) ns0 ns'). rewrite <- (children_filter (L "frames") a cs).
    eapply define_all_adds with (keep := keep); [apply dr_adds|exact K|exact H].
  - none. - none.
Qed.
Lemma plain_ifaces c ns' : str_eqb (n_name c) (L "ns") = false -> ns_ok ns0 -> ns_child mk ns0 c = Ok ns' -> adds ns_ifaces iface_of (items (Some (L "interface")) (L "interfaces") c) ns0 ns'.
Proof.
  intros E O H. assert (K : keep ns0) by (apply keeps_refl; exact O). destruct c as [nm a cs|t|]; [|discriminate..]. cases H E.
  - none. - none. - none. - none. - none.
  - apply di_adds; assumption.
  - change (adds ns_ifaces iface_of (filter is_elem cs) ns0 ns'). rewrite <- (children_filter (L "interfaces") a cs).
    eapply define_all_adds with (keep := keep); [apply di_adds|exact K|exact H].
Qed.
End Kinds.

Section All.
Variables (multi : bool) (stod : str -> option spec_float) (docs : list node) (s : protocol).
Hypothesis H : validate multi stod docs = Ok s.
Ltac side := first [intros ? ? []; reflexivity | reflexivity | intros ? [= <-]; reflexivity | discriminate].
Lemma fields_defined : all_defined None (L "fields") field_of ns_fields_list docs s.
Proof.
  eapply (validate_elems ns_fields None (L "fields") field_of); [..|exact H]; try side.
  - intros ? []; reflexivity.
  - intros; apply plain_fields with (mk := mk); assumption.
Qed.
Lemma messages_defined : all_defined (Some (L "message")) (L "messages") message_of ns_messages_list docs s.
Proof.
  eapply (validate_elems ns_messages (Some (L "message")) (L "messages") message_of); [..|exact H]; try side.
  - intros ? []; reflexivity.
  - intros; apply plain_messages with (mk := mk); assumption.
Qed.
Lemma ifaces_defined : all_defined (Some (L "interface")) (L "interfaces") iface_of ns_ifaces_list docs s.
Proof.
  eapply (validate_elems ns_ifaces (Some (L "interface")) (L "interfaces") iface_of); [..|exact H]; try side.
  - intros ? []; reflexivity.
  - intros; apply plain_ifaces with (mk := mk); assumption.
Qed.
Lemma frames_defined : all_defined (Some (L "frame")) (L "frames") frame_of ns_frames_list docs s.
Proof.
  eapply (validate_elems ns_frames (Some (L "frame")) (L "frames") frame_of); [..|exact H]; try side.
  - intros ? []; reflexivity.
  - intros; apply plain_frames with (mk := mk); assumption.
Qed.
End All.
