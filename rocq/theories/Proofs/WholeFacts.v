(** Every field of an accepted protocol is a (copy of a part of a) field that was accepted. *)
From Verif.Model Require Import Base Common Xml Units Field FieldCommon IntField EnumField SetField FloatField OptCond Composite Message Frame Protocol.
From Verif.Spec Require Import Texts IntSpec XmlSpec FieldSpec ProtocolSpec WholeSpec LengthSpec.
From Verif.Proofs Require Import BaseFacts CommonFacts FieldInv FieldFacts LengthFacts ProtocolFacts RefFacts.

Lemma ns_ok_at l path n : nss_ok l -> namespace_at l path n -> ns_ok n.
Proof.
  intros Hs N. revert Hs. induction N as [l k n I|l k n path m I N IH]; intros Hs; [eapply nss_each; eassumption|]. apply IH. apply subs_nss. eapply nss_each; eassumption.
Qed.
Lemma layer_field_accepted me n l : menv_ok me -> layer_parse me n = Ok l -> Forall accepted (opt_part (ly_field l)) /\
  (forall seek own f vbr from, ly_spec l = SSync seek (Some (own, f)) vbr from -> accepted f).
Proof.
  intros [E _] H. destruct E as [E1 E2]. assert (Pf : forall x m f, parse_field (me_env me) x m = Ok f -> accepted f) by (intros; eapply acc; eassumption).
  unfold layer_parse in H. apply bind_Ok in H as (k & _ & H). do 4 (apply bind_Ok in H as (? & _ & H)). rename x2 into p. do 4 (apply bind_Ok in H as (? & _ & H)).
  apply bind_Ok in H as (f1 & F1 & H). apply bind_Ok in H as (f2 & F2 & H). apply bind_Ok in H as (u & _ & H). apply bind_Ok in H as (sp & S & H). injection H as <-. cbn [ly_field ly_spec]. split.
  - eapply nested_child_parts; [exact Pf| |eapply nested_ref_parts; [exact E2| |exact F1]; constructor|exact F2]. discriminate.
  - intros seek own f vbr from ->. destruct k; try discriminate S.
    + unfold custom_parse in S. do 5 (apply bind_Ok in S as (? & _ & S)). discriminate.
    + unfold sync_parse in S. do 2 (apply bind_Ok in S as (? & _ & S)). apply bind_Ok in S as (esc & X & S). apply bind_Ok in S as (? & _ & S). apply bind_Ok in S as ([vb nl] & _ & S). apply bind_Ok in S as (? & _ & S).
      assert (Es : esc = Some (own, f)).
      { destruct (find_prop _ (L "from")) as [[|c t]|]; [congruence| |destruct nl; [discriminate|congruence]]. apply bind_Ok in S as (? & _ & S). destruct (sync_suffix_supported _); [congruence|discriminate]. }
      subst esc. clear S. unfold sync_esc in X. apply bind_Ok in X as (? & _ & X). apply bind_Ok in X as (ext & Xe & X). apply bind_Ok in X as (esc & Xs & X).
      destruct esc as [[o g]|]; [|discriminate]. apply bind_Ok in X as (? & _ & X). destruct (prop_supported _ _); [|discriminate]. injection X as -> ->.
      destruct (parseGetChildrenNamed n (L "escField")) as [|c [|c2 cs]].
      * destruct ext as [g|]; [|discriminate]. injection Xs as <- <-. destruct (find_prop _ _); [|discriminate]. apply bind_Ok in Xe as (g' & Xg & Xe). apply of_opt_Ok in Xg. injection Xe as ->. eapply E2. exact Xg.
      * destruct ext; [discriminate|]. destruct (parseGetChildren c) as [|m [|? ?]]; try discriminate. apply bind_Ok in Xs as (g & Xg & Xs). injection Xs as <- <-. eapply Pf. exact Xg.
      * discriminate.
    + unfold value_parse in S. do 9 (apply bind_Ok in S as (? & _ & S)). discriminate.
    + unfold checksum_parse in S. do 7 (apply bind_Ok in S as (? & _ & S)). discriminate.
Qed.
Theorem field_in_derived multi stod docs s f : validate multi stod docs = Ok s -> field_in s f -> derived f.
Proof.
  intros V. apply validate_ok in V. unfold proto_ok in V. rewrite Forall_forall in V. intros H.
  induction H as [sc path f Hs (n & N & F)|sc path m f Hs (n & N & M) F|sc path i f Hs (n & N & M) F|sc path fr l own f Hs (n & N & M) L E|sc path fr l seek own f vbr from Hs (n & N & M) L E|f g _ IH P];
    [apply V in Hs; pose proof (ns_ok_at _ _ _ Hs N) as G; inversion G as [? G1 G2 G3 G4 _ _ _]; subst..|eapply dr_part; eassumption].
  - apply by_name_In in F as [k F]. apply dr_accepted. destruct G1 as [_ G1]. destruct (G1 _ _ F) as (_ & _ & X). exact X.
  - apply by_name_In in M as [k M]. destruct G2 as [_ G2]. destruct (G2 _ _ M) as (_ & _ & X). apply message_fields_derived in X. rewrite Forall_forall in X. auto.
  - apply by_name_In in M as [k M]. destruct G3 as [_ G3]. destruct (G3 _ _ M) as (_ & _ & X). apply iface_fields_derived in X. rewrite Forall_forall in X. auto.
  - apply by_name_In in M as [k M]. destruct G4 as [_ G4]. destruct (G4 _ _ M) as (_ & _ & me & m & Me & P). apply dr_accepted.
    unfold frame_parse in P. do 6 (apply bind_Ok in P as (? & _ & P)). apply bind_Ok in P as (ls & Ml & P). do 2 (apply bind_Ok in P as (? & _ & P)). injection P as <-. cbn [fr_layers] in L.
    destruct (mapM_In _ _ _ _ Ml L) as (a & _ & Pl). destruct (layer_field_accepted _ _ _ Me Pl) as [Q _]. rewrite E in Q. inversion Q; assumption.
  - apply by_name_In in M as [k M]. destruct G4 as [_ G4]. destruct (G4 _ _ M) as (_ & _ & me & m & Me & P). apply dr_accepted.
    unfold frame_parse in P. do 6 (apply bind_Ok in P as (? & _ & P)). apply bind_Ok in P as (ls & Ml & P). do 2 (apply bind_Ok in P as (? & _ & P)). injection P as <-. cbn [fr_layers] in L.
    destruct (mapM_In _ _ _ _ Ml L) as (a & _ & Pl). destruct (layer_field_accepted _ _ _ Me Pl) as [_ Q]. eapply Q. exact E.
Qed.
Lemma derived_scalars f : derived f -> all scalars f.
Proof.
  apply derived_all; [| |exact accepted_scalars]; [intros g H|intros v g H]; apply all_here in H; destruct g; exact H.
Qed.
Lemma derived_shaped f : derived f -> all shaped f.
Proof.
  apply derived_all; [| |exact accepted_shaped].
  - intros g H. apply all_here in H. destruct g; cbn in *; try exact I.
    + apply Forall_map. eapply Forall_impl; [|exact H]. cbn. intros m. rewrite clone_common. auto.
    + intros Z1. rewrite (H Z1). reflexivity.
  - intros v g H. apply all_here in H. destruct g; exact H.
Qed.
Lemma derived_total f : derived f -> all total_ok f.
Proof.
  intros H. apply all_and; [apply all_and; [apply derived_leaves|apply derived_scalars]|apply derived_shaped]; exact H.
Qed.
Lemma derived_distinct f : derived f -> all distinct_members f.
Proof.
  apply derived_all; [| |exact accepted_distinct].
  - intros g H. apply all_here in H. unfold distinct_members in *. rewrite members_clone. exact H.
  - intros v g H. apply all_here in H. unfold distinct_members in *. rewrite members_bump. exact H.
Qed.
