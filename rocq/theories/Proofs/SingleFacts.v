(** Which properties of a field element are checked to be given once. *)
From Verif.Model Require Import Base Common Xml Units Field FieldCommon IntField EnumField SetField FloatField OptCond Composite.
From Verif.Spec Require Import Texts Ints Versions IntSpec EnumSpec CondSpec XmlSpec FieldSpec.
From Verif.Proofs Require Import BaseFacts CommonFacts IntInv XmlFacts FieldInv FieldFacts OwnFacts.

Definition once (p : props) (k : str) : Prop := (length (values_of p k) <= 1)%nat.
Lemma once_single p k b u : parseValidateSinglePropInstance p k b = Ok u -> once p k.
Proof. intros H. apply single_values in H. apply H. Qed.
Ltac once_tac :=
  match goal with
  | H : parseValidateSinglePropInstance ?p ?k _ = Ok _ |- once ?p ?k => exact (once_single _ _ _ _ H)
  end.
Lemma string_prop_once e p k m d o v : string_prop e p k m d o = Ok v -> once p k.
Proof. unfold string_prop. intros. inv_ok. once_tac. Qed.
Lemma bool_prop_once e p k o v : bool_prop e p k o = Ok v -> once p k.
Proof. unfold bool_prop. intros. inv_ok. once_tac. Qed.
Lemma override_once e p ks : forall olds v, override_props e p ks olds = Ok v -> Forall (once p) ks.
Proof.
  induction ks as [|k ks IH]; intros olds v H; [constructor|]. cbn [override_props] in H. inv_ok.
  constructor; [|eapply IH; eassumption].
  match goal with X : override_prop _ _ _ _ = Ok _ |- _ => unfold override_prop in X; inv_ok end. once_tac.
Qed.
(** properties that are checked to be given once, per kind of field *)
Definition common_single : list str :=
  [L "name"; L "displayName"; L "description"; L "sinceVersion"; L "deprecated"; L "removed";
   L "reuse"; L "semanticType"; L "pseudo"; L "fixedValue"; L "customizable"; L "failOnInvalid"; L "forceGen"] ++
  override_names ++ [L "copyCodeFrom"; L "validateMinLength"].
Definition kind_single (k : kind) : list str :=
  match k with
  | KInt => [L "type"; L "endian"; L "length"; L "bitLength"; L "scaling"; L "serOffset"; L "nonUniqueSpecialsAllowed";
             L "defaultValue"; L "defaultValidValue"; L "validCheckVersion"; L "units"; L "displayDecimals";
             L "displayOffset"; L "signExt"; L "availableLengthLimit"]
  | KEnum => [L "type"; L "endian"; L "length"; L "bitLength"; L "nonUniqueAllowed"; L "validCheckVersion";
              L "defaultValue"; L "hexAssign"; L "availableLengthLimit"]
  | KSet => [L "type"; L "endian"; L "length"; L "bitLength"; L "nonUniqueAllowed"; L "validCheckVersion"; L "availableLengthLimit"]
  | KFloat => [L "type"; L "endian"; L "nonUniqueSpecialsAllowed"; L "defaultValue"; L "validCheckVersion"; L "units";
               L "displayDecimals"; L "validFullRange"]
  | KBitfield => [L "endian"; L "copyValidCondFrom"]
  | KBundle => [L "copyValidCondFrom"]
  | KString => [L "encoding"; L "length"; L "zeroTermSuffix"; L "defaultValue"; L "defaultValidValue"]
  | KData => [L "length"; L "defaultValue"; L "defaultValidValue"]
  | KList => [L "count"; L "elemFixedLength"]
  | KRef => [L "field"]
  | KOptional => [L "defaultMode"; L "cond"; L "missingOnReadFail"; L "missingOnInvalid"]
  | KVariant => [L "defaultMember"]
  end.
Lemma update_common_once e x p c0 c k : update_common e x p c0 = Ok c -> In k common_single -> once p k \/ k = L "reuse".
Proof.
  intros H Hk. unfold update_common in H. inv_all.
  repeat match goal with
  | X : string_prop _ _ _ _ _ _ = Ok _ |- _ => apply string_prop_once in X
  | X : bool_prop _ _ _ _ = Ok _ |- _ => apply bool_prop_once in X
  | X : override_props _ _ _ _ = Ok _ |- _ => apply override_once in X
  | X : update_versions _ _ _ = Ok _ |- _ => unfold update_versions in X; inv_all
  | X : update_sem _ _ = Ok _ |- _ => unfold update_sem in X; apply bind_Ok in X as (? & X & _)
  | X : update_copy_code _ _ _ = Ok _ |- _ => unfold update_copy_code in X; apply bind_Ok in X as (? & X & _)
  | X : update_validate_min_length _ _ _ = Ok _ |- _ => unfold update_validate_min_length in X; apply bind_Ok in X as (? & X & _)
  end.
  repeat match goal with X : parseValidateSinglePropInstance _ _ _ = Ok _ |- _ => apply once_single in X end.
  match goal with X : Forall (once p) override_names |- _ => unfold override_names in X; repeat match goal with Y : Forall _ (_ :: _) |- _ => inversion Y; clear Y; subst end end.
  unfold common_single, override_names in Hk. cbn [app] in Hk.
  repeat (destruct Hk as [<-|Hk]; [first [left; assumption|right; reflexivity]|]). destruct Hk.
Qed.
Ltac once_unfold f := match goal with X : f = Ok _ |- _ => idtac end.
Ltac head_of t := match t with ?g _ => head_of g | _ => t end.
Ltac once_step :=
  match goal with
  | X : parseValidateSinglePropInstance _ _ _ = Ok _ |- _ => apply once_single in X
  | X : string_prop _ _ _ _ _ _ = Ok _ |- _ => apply string_prop_once in X
  | X : bool_prop _ _ _ _ = Ok _ |- _ => apply bool_prop_once in X
  end.
(** the first check of a helper *)
Ltac first_check X := apply bind_Ok in X as (? & X & _); apply once_single in X.
Lemma kind_once rec e x c0 c p n k old repl f s : kind_parse rec e x c0 c p n k old repl = Ok f ->
  In s (kind_single k) -> once p s.
Proof.
  intros H Hs. unfold kind_parse in H. destruct k.
  - apply bind_Ok in H as (u & _ & H). apply bind_Ok in H as (st & H & _). unfold int_parse in H.
    apply bind_Ok in H as (a1 & H1 & H). unfold int_update_type in H1. first_check H1.
    apply bind_Ok in H as (a2 & H2 & H). unfold update_endian in H2. first_check H2.
    apply bind_Ok in H as (a3 & H3 & H). unfold int_update_length in H3. first_check H3.
    apply bind_Ok in H as (a4 & H4 & H). unfold int_update_bit_length in H4. first_check H4.
    apply bind_Ok in H as (a5 & H5 & H). unfold update_scaling in H5. first_check H5.
    apply bind_Ok in H as (a6 & H6 & H). unfold update_ser_offset in H6. first_check H6.
    inv_all. repeat once_step.
    repeat match goal with
    | X : int_update_default _ _ _ _ _ _ _ = Ok _ |- _ => unfold int_update_default in X; first_check X
    | X : int_update_default_valid _ _ _ _ _ _ _ _ _ _ = Ok _ |- _ => unfold int_update_default_valid in X; first_check X
    | X : update_units _ _ = Ok _ |- _ => unfold update_units in X; first_check X
    | X : update_display_decimals _ _ = Ok _ |- _ => unfold update_display_decimals in X; first_check X
    | X : update_display_offset _ _ = Ok _ |- _ => unfold update_display_offset in X; first_check X
    end.
    repeat (destruct Hs as [<-|Hs]; [assumption|]). destruct Hs.
  - apply bind_Ok in H as (u & _ & H). apply bind_Ok in H as (st & H & _). unfold enum_parse in H.
    apply bind_Ok in H as (a1 & H1 & H). unfold int_update_type in H1. first_check H1.
    apply bind_Ok in H as (a2 & H2 & H). unfold update_endian in H2. first_check H2.
    apply bind_Ok in H as (a3 & H3 & H). unfold int_update_length in H3. first_check H3.
    apply bind_Ok in H as (a4 & H4 & H). unfold int_update_bit_length in H4. first_check H4.
    inv_all. 
    repeat match goal with
    | X : int_update_default _ _ _ _ _ _ _ = Ok _ |- _ => unfold int_update_default in X; first_check X
    | X : enum_hex_assign _ _ _ _ = Ok _ |- _ => unfold enum_hex_assign in X; apply bind_Ok in X as (? & X & _)
    end. repeat once_step.
    repeat (destruct Hs as [<-|Hs]; [assumption|]). destruct Hs.
  - apply bind_Ok in H as (u & _ & H). apply bind_Ok in H as (st & H & _). unfold set_parse in H.
    apply bind_Ok in H as (a1 & H1 & H). unfold update_endian in H1. first_check H1.
    apply bind_Ok in H as (a2 & H2 & H). unfold set_update_type in H2. first_check H2.
    apply bind_Ok in H as ([[? ?] ?] & H3 & H). unfold set_update_length in H3.
    apply bind_Ok in H3 as (? & H3 & H4). apply once_single in H3. apply bind_Ok in H4 as (? & _ & H4).
    first_check H4. inv_all.
    repeat match goal with
    | X : set_update_nonunique _ _ _ _ = Ok _ |- _ => unfold set_update_nonunique in X; apply bind_Ok in X as (? & X & _)
    end. repeat once_step.
    repeat (destruct Hs as [<-|Hs]; [assumption|]). destruct Hs.
  - apply bind_Ok in H as (u & _ & H). apply bind_Ok in H as (st & H & _). unfold float_parse in H.
    apply bind_Ok in H as (a1 & H1 & H). unfold float_update_type in H1. first_check H1.
    apply bind_Ok in H as (a2 & H2 & H). unfold float_update_endian in H2. first_check H2.
    inv_all.
    repeat match goal with
    | X : float_update_default _ _ _ _ _ = Ok _ |- _ => unfold float_update_default in X; first_check X
    | X : float_new_ranges _ _ _ _ _ _ _ = Ok _ |- _ => unfold float_new_ranges in X; apply bind_Ok in X as (? & X & _);
        cbn [mapM] in X; apply bind_Ok in X as (? & X & _); unfold float_ranges_of_prop in X; apply bind_Ok in X as (? & X & _)
    | X : update_units _ _ = Ok _ |- _ => unfold update_units in X; first_check X
    | X : update_display_decimals _ _ = Ok _ |- _ => unfold update_display_decimals in X; first_check X
    end. repeat once_step.
    repeat (destruct Hs as [<-|Hs]; [assumption|]). destruct Hs.
  - match type of H with (let (_, _) := ?t in _) = _ => destruct t as [[? ?] ?] end.
    unfold bitfield_parse in H. inv_ok.
    match goal with X : update_endian _ _ _ = Ok _ |- _ => unfold update_endian in X; first_check X end.
    match goal with X : update_valid_cond _ _ _ _ _ _ = Ok _ |- _ => unfold update_valid_cond in X; apply bind_Ok in X as (? & X & _);
      unfold copy_valid_cond in X; first_check X end.
    repeat (destruct Hs as [<-|Hs]; [assumption|]). destruct Hs.
  - apply bind_Ok in H as (ra & _ & H).
    match type of H with (let (_, _) := ?t in _) = _ => destruct t as [[? ?] ?] end.
    unfold bundle_parse in H. inv_ok.
    match goal with X : update_valid_cond _ _ _ _ _ _ = Ok _ |- _ => unfold update_valid_cond in X; apply bind_Ok in X as (? & X & _);
      unfold copy_valid_cond in X; first_check X end.
    repeat (destruct Hs as [<-|Hs]; [assumption|]). destruct Hs.
  - apply bind_Ok in H as (u & _ & H). unfold string_parse in H.
    match type of H with (let (_, _) := ?t in _) = _ => destruct t as [? ?] end. inv_all.
    match goal with X : update_fixed_length _ _ _ _ = Ok _ |- _ => unfold update_fixed_length in X; first_check X end.
    match goal with X : update_zero_term _ _ _ _ = Ok _ |- _ => unfold update_zero_term in X; first_check X end.
    match goal with X : update_values _ _ _ _ _ _ _ _ _ = Ok _ |- _ => unfold update_values in X; inv_ok end. repeat once_step.
    repeat (destruct Hs as [<-|Hs]; [assumption|]). destruct Hs.
  - apply bind_Ok in H as (u & _ & H). unfold data_parse in H.
    match type of H with (let (_, _) := ?t in _) = _ => destruct t as [? ?] end. inv_all.
    match goal with X : update_fixed_length _ _ _ _ = Ok _ |- _ => unfold update_fixed_length in X; first_check X end.
    match goal with X : update_values _ _ _ _ _ _ _ _ _ = Ok _ |- _ => unfold update_values in X; inv_ok end. repeat once_step.
    repeat (destruct Hs as [<-|Hs]; [assumption|]). destruct Hs.
  - apply bind_Ok in H as (u & _ & H). unfold list_parse in H.
    match type of H with (let (_, _) := ?t in _) = _ => destruct t as [[[[[? ?] ?] ?] ?] ?] end. inv_ok.
    match goal with X : update_count _ _ _ = Ok _ |- _ => unfold update_count in X; first_check X end.
    match goal with X : update_elem_fixed _ _ _ = Ok _ |- _ => unfold update_elem_fixed in X; first_check X end.
    repeat (destruct Hs as [<-|Hs]; [assumption|]). destruct Hs.
  - apply bind_Ok in H as (u & _ & H). unfold ref_parse in H. first_check H.
    repeat (destruct Hs as [<-|Hs]; [assumption|]). destruct Hs.
  - apply bind_Ok in H as (u & _ & H). unfold optional_parse in H.
    match type of H with (let (_, _) := ?t in _) = _ => destruct t as [[? ?] ?] end. inv_ok.
    match goal with X : update_mode _ _ = Ok _ |- _ => unfold update_mode in X; first_check X end.
    match goal with X : update_opt_cond _ _ _ _ = Ok _ |- _ => unfold update_opt_cond in X; first_check X end. repeat once_step.
    repeat (destruct Hs as [<-|Hs]; [assumption|]). destruct Hs.
  - match type of H with (let (_, _) := ?t in _) = _ => destruct t as [? ?] end.
    unfold variant_parse in H. inv_ok.
    match goal with X : update_default_member _ _ _ _ = Ok _ |- _ => unfold update_default_member in X; first_check X end.
    repeat (destruct Hs as [<-|Hs]; [assumption|]). destruct Hs.
Qed.
Lemma kind_single_extra k s : In s (kind_single k) -> In s (extra_props k) /\ ~ In s common_props /\ ~ In s (possible_props k) /\ s <> [].
Proof.
  intros H. assert (X : forallb (fun a => mem_str a (extra_props k) && negb (mem_str a common_props) && negb (mem_str a (possible_props k)) && negb (is_nil a)) (kind_single k) = true)
    by (destruct k; vm_compute; reflexivity).
  rewrite forallb_forall in X. specialize (X s H). rewrite !andb_true_iff, !negb_true_iff in X. destruct X as (((A & B) & C) & D).
  apply mem_str_In in A. apply mem_str_nIn in B, C. repeat split; auto. intros ->. discriminate.
Qed.
Lemma single_in_common s : In s common_single -> In s common_props.
Proof.
  intros H. assert (X : forallb (fun a => mem_str a common_props) common_single = true) by (vm_compute; reflexivity).
  rewrite forallb_forall in X. apply mem_str_In. auto.
Qed.
Lemma field_single fuel e x n f s : field_parse fuel e x n = Ok f -> In s (common_single ++ kind_single (f_kind f)) ->
  exists vs, supplied n s vs /\ (length vs <= 1)%nat.
Proof.
  intros H Hs.
  apply field_parse_inv in H as (fuel' & k & p & c0 & old & repl & c & E & Hk & Hp & Hr & Hrep & Hc & Hkp & Hver).
  pose proof (kind_parse_common _ _ _ _ _ _ _ _ _ _ _ Hkp) as (K & _). rewrite K in Hs.
  exists (values_of p s).
  apply in_app_or in Hs as [Hs|Hs].
  - split; [exact (common_supplied _ _ _ _ Hp (single_in_common _ Hs))|].
    destruct (update_common_once _ _ _ _ _ _ Hc Hs) as [O | ->]; [exact O|].
    unfold check_reuse in Hr. first_check Hr. exact Hr.
  - destruct (kind_single_extra _ _ Hs) as (A & B & C & D).
    split; [exact (field_props_supplied _ _ _ _ _ Hp D (or_intror (conj A B)) C)|].
    eapply kind_once; eassumption.
Qed.
(** the name that is supplied is the name of the field *)
Lemma field_name_used fuel e x n f v : field_parse fuel e x n = Ok f -> supplied n (L "name") [v] -> v <> [] -> f_name f = v.
Proof.
  intros H Hs Hv.
  apply field_parse_inv in H as (fuel' & k & p & c0 & old & repl & c & E & Hk & Hp & Hr & Hrep & Hc & Hkp & Hver).
  assert (N : c_name c = v).
  { assert (S : In (L "name") common_props) by (apply In_dec_eval; reflexivity).
    pose proof (supplied_det _ _ _ _ Hs (common_supplied _ _ _ _ Hp S)) as F.
    unfold update_common in Hc. apply bind_Ok in Hc as (nm & Hn & Hc). unfold string_prop in Hn.
    apply bind_Ok in Hn as (u & _ & Hn). rewrite find_values, <- F in Hn. cbn in Hn. injection Hn as <-.
    inv_all. reflexivity. }
  unfold f_name. revert Hkp. unfold kind_parse. destruct k; intros Hkp;
    try (apply bind_Ok in Hkp as (u & _ & Hkp); apply bind_Ok in Hkp as (st & _ & Hkp); injection Hkp as <-; exact N); clear Hc Hr Hrep Hp Hver.
  - match type of Hkp with (let (_, _) := ?t in _) = _ => destruct t as [[? ?] ?] end. unfold bitfield_parse in Hkp. inv_ok. reflexivity.
  - apply bind_Ok in Hkp as (ra & _ & Hkp). match type of Hkp with (let (_, _) := ?t in _) = _ => destruct t as [[? ?] ?] end. unfold bundle_parse in Hkp. inv_ok. reflexivity.
  - unfold string_parse in Hkp. inv_all; reflexivity.
  - unfold data_parse in Hkp. inv_all; reflexivity.
  - unfold list_parse in Hkp. apply bind_Ok in Hkp as (u & _ & Hkp).
    match type of Hkp with (let (_, _) := ?t in _) = _ => destruct t as [[[[[? ?] ?] ?] ?] ?] end. inv_ok. reflexivity.
  - unfold ref_parse in Hkp. apply bind_Ok in Hkp as (u & _ & Hkp). apply bind_Ok in Hkp as (u' & _ & Hkp).
    destruct (find_prop p (L "field")).
    + inv_ok; cbn. destruct (c_name c); [contradiction|reflexivity].
    + destruct old as [[]|]; try discriminate. injection Hkp as <-. exact N.
  - unfold optional_parse in Hkp. apply bind_Ok in Hkp as (u & _ & Hkp).
    match type of Hkp with (let (_, _) := ?t in _) = _ => destruct t as [[? ?] ?] end. inv_ok. reflexivity.
  - match type of Hkp with (let (_, _) := ?t in _) = _ => destruct t as [? ?] end. unfold variant_parse in Hkp. inv_ok. reflexivity.
Qed.
