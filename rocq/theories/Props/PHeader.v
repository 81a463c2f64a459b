(** C33: files of the same schema agree on its properties; C32: dslVersion. *)
From Verif.Model Require Import Base Common Xml Units Field FieldCommon IntField EnumField SetField FloatField OptCond Composite Message Frame Protocol.
From Verif.Spec Require Import Texts IntSpec XmlSpec FieldSpec ProtocolSpec DeclSpec HeaderSpec DslSpec Ex.
From Verif.Proofs Require Import BaseFacts CommonFacts RangeFacts XmlFacts IntInv SingleFacts FieldInv FieldFacts OwnFacts MapFacts ProtocolFacts RefFacts DeclFacts HeaderFacts CaseFacts.
From Verif.Props Require Import ExProtocol.
Local Open Scope string_scope. Local Open Scope Z_scope. Local Open Scope list_scope.

(** ** C33 *)
(** what any file says about a property is what the schema reports *)
Theorem C33_reported : forall multi stod docs s, validate multi stod docs = Ok s ->
  exists files, doc_schemas [] docs files /\ forall sc d, In sc (pr_schemas s) -> In (sc_name sc, d) files ->
    (forall v vs, supplied d (T "description") (v :: vs) -> sc_description sc = v) /\
    (forall v vs, supplied d (T "displayName") (v :: vs) -> sc_dsl sc = 0 \/ 7 <= sc_dsl sc -> sc_displayName sc = v) /\
    (forall v vs z, supplied d (T "id") (v :: vs) -> denotes v z -> 0 <= z < 2 ^ 32 -> sc_id sc = z) /\
    (forall v vs z, supplied d (T "version") (v :: vs) -> denotes v z -> 0 <= z < 2 ^ 32 -> sc_version sc = z) /\
    (forall v vs z, supplied d (T "dslVersion") (v :: vs) -> denotes v z -> 0 <= z < 2 ^ 32 -> sc_dsl sc = z) /\
    (forall v vs e, supplied d (T "endian") (v :: vs) -> endian_text v e -> sc_endian sc = e) /\
    (forall v vs b, supplied d (T "nonUniqueMsgIdAllowed") (v :: vs) -> bool_text v b -> sc_nonUnique sc = b).
Proof.
  intros multi stod docs s H. apply validate_known in H as (files & D & K & _). exists files. split; [exact D|]. intros sc d Hs Hd.
  rewrite Forall_forall in K. destruct (K _ Hs) as [[H1 H2 H3 H4 H5 H6 H7 H8] A _ _]. specialize (A _ Hd). unfold agrees in A.
  assert (U : forall k z' v vs z, In k schema_props -> supplied d k (v :: vs) -> denotes v z -> 0 <= z < 2 ^ 32 -> unsigned_prop (sc_props sc) k = Ok z' -> z' = z).
  { intros k z' v vs z Hk S Dn R E. unfold unsigned_prop in E. rewrite (A _ _ _ Hk S) in E. rewrite (unsigned_small _ _ Dn R) in E. injection E as <-. reflexivity. }
  assert (I : forall k, In k schema_properties -> In k schema_props) by (intros k; exact (fun x => x)).
  repeat match goal with |- _ /\ _ => split end.
  - intros v vs S. rewrite H2. unfold get_prop. rewrite (A (L "description") v vs); [reflexivity|cbn; tauto|exact S].
  - intros v vs S V. rewrite H8. replace ((0 <? sc_dsl sc) && (sc_dsl sc <? 7)) with false by lia. unfold get_prop. rewrite (A (L "displayName") v vs); [reflexivity|cbn; tauto|exact S].
  - intros v vs z S Dn R. apply (U (L "id") _ v vs); auto. cbn; tauto.
  - intros v vs z S Dn R. apply (U (L "version") _ v vs); auto. cbn; tauto.
  - intros v vs z S Dn R. apply (U (L "dslVersion") _ v vs); auto. cbn; tauto.
  - intros v vs e S E. unfold get_prop in H6. rewrite (A (L "endian") v vs) in H6; [|cbn; tauto|exact S]. unfold parseEndian in H6. destruct e; cbn in E.
    + destruct E as [->|E]; [injection H6 as <-; reflexivity|]. rewrite (caseless_lower _ _ E eq_refl) in H6. inversion E; subst. injection H6 as <-. reflexivity.
    + rewrite (caseless_lower _ _ E eq_refl) in H6. inversion E; subst. injection H6 as <-. reflexivity.
  - intros v vs b S E. rewrite (A (L "nonUniqueMsgIdAllowed") v vs) in H7; [|cbn; tauto|exact S]. unfold parseStrToBool in H7.
    destruct b; cbn in E; (destruct E as [E| ->]; [rewrite (caseless_lower _ _ E eq_refl) in H7|]; injection H7 as <-; reflexivity).
Qed.
Print Assumptions C33_reported.
(** properties no file supplies have their defaults *)
Theorem C33_defaults : forall multi stod docs s, validate multi stod docs = Ok s ->
  exists files, doc_schemas [] docs files /\ forall sc, In sc (pr_schemas s) ->
    let none k := forall d, In (sc_name sc, d) files -> supplied d (T k) [] in
    (none "description" -> sc_description sc = []) /\ (none "displayName" -> sc_displayName sc = []) /\ (none "id" -> sc_id sc = 0) /\
    (none "version" -> sc_version sc = 0) /\ (none "dslVersion" -> sc_dsl sc = 0) /\ (none "endian" -> sc_endian sc = Little) /\
    (none "nonUniqueMsgIdAllowed" -> sc_nonUnique sc = false).
Proof.
  intros multi stod docs s H. apply validate_known in H as (files & D & K & _). exists files. split; [exact D|]. intros sc Hs none.
  rewrite Forall_forall in K. destruct (K _ Hs) as [[H1 H2 H3 H4 H5 H6 H7 H8] _ (d & Hd & F) _].
  assert (N : forall k, In (T k) schema_props -> none k -> find_prop (sc_props sc) (T k) = None).
  { intros k Hk N. rewrite find_values, <- (supplied_det _ _ _ _ (N _ Hd) (F _ Hk)). reflexivity. }
  unfold unsigned_prop, get_prop in *.
  repeat match goal with |- _ /\ _ => split end; intros Z; apply N in Z; [|cbn; tauto| |cbn; tauto| |cbn; tauto| |cbn; tauto| |cbn; tauto| |cbn; tauto| |cbn; tauto]; unfold T in Z; fold (L "description") (L "displayName") (L "id") (L "version") (L "dslVersion") (L "endian") (L "nonUniqueMsgIdAllowed") in Z.
  - rewrite H2, Z. reflexivity.
  - rewrite H8, Z. destruct (_ && _); reflexivity.
  - rewrite Z in H3. injection H3 as <-. reflexivity.
  - rewrite Z in H4. injection H4 as <-. reflexivity.
  - rewrite Z in H5. injection H5 as <-. reflexivity.
  - rewrite Z in H6. injection H6 as <-. reflexivity.
  - rewrite Z in H7. injection H7 as <-. reflexivity.
Qed.
Print Assumptions C33_defaults.
(** files that contradict each other are not accepted *)
Theorem C33_no_contradiction : forall multi stod docs s, validate multi stod docs = Ok s ->
  exists files, doc_schemas [] docs files /\ forall name k d1 v1 vs1 d2 v2 vs2, In k schema_properties ->
    In (name, d1) files -> In (name, d2) files -> supplied d1 k (v1 :: vs1) -> supplied d2 k (v2 :: vs2) -> v1 = v2.
Proof.
  intros multi stod docs s H. apply validate_known in H as (files & D & K & E). exists files. split; [exact D|].
  intros name k d1 v1 vs1 d2 v2 vs2 Hk I1 I2 S1 S2. destruct (E _ _ I1) as (sc & Hs & <-). rewrite Forall_forall in K. pose proof (kn_agrees _ _ (K _ Hs)) as A.
  pose proof (A _ I1 k v1 vs1 Hk S1) as X. pose proof (A _ I2 k v2 vs2 Hk S2) as Y. congruence.
Qed.
Print Assumptions C33_no_contradiction.
(** a further file without properties belongs to the current schema and changes none of the properties *)
Lemma no_props_no_children n names : (forall k, In k names -> supplied n k []) -> ~ In [] names -> childrenAsProps (parseGetChildren n) names true [] = Ok [].
Proof.
  intros H Ne. assert (E : forall c, In c (parseGetChildren n) -> mem_str (n_name c) names = false).
  { intros c Hc. destruct (mem_str (n_name c) names) eqn:E; [|reflexivity]. apply mem_str_In in E. pose proof (H _ E) as (raw & as_ & ms & cs & E1 & _ & _ & El & F).
    symmetry in E1. apply app_eq_nil in E1 as [_ ->]. inversion F; subst. assert (Nn : n_name c <> []) by (intros X; rewrite X in E; auto).
    pose proof (elements_called_det _ _ _ _ El (elements_called_filter (n_name c) (n_children n) Nn)) as X. assert (I : In c []); [|destruct I]. rewrite X. apply filter_In. split; [|apply str_eqb_refl].
    rewrite get_children_filter in Hc. exact Hc. }
  induction (parseGetChildren n) as [|c l IH]; [reflexivity|]. cbn. rewrite E by (left; reflexivity). apply IH. intros c' Hc'. apply E. right. exact Hc'.
Qed.
Theorem C33_omitted : forall multi stod docs s d, validate multi stod docs = Ok s ->
  n_attrs d = [] -> (forall k, In k schema_properties -> supplied d k []) -> validate_schema s d = Ok s.
Proof.
  intros multi stod docs s d H A P. pose proof (validate_known _ _ _ _ H) as (files & D & _ & F). unfold validate in H. apply bind_Ok in H as (u & Nd & H). apply guard_Ok in Nd.
  apply bind_Ok in H as (s' & Hs & H). apply bind_Ok in H as (u' & _ & H). injection H as ->.
  assert (N : names_ok s).
  { revert Hs. apply (foldM_inv _ names_ok); [intros a b a'; apply names_validate_doc|]. constructor; cbn; [constructor|constructor|auto]. }
  assert (Ns : pr_schemas s <> []).
  { destruct docs as [|d0 docs]; [discriminate|]. assert (X : exists nm, In (nm, d0) files) by (inversion D; subst; eexists; left; reflexivity). destruct X as [nm X]. destruct (F _ _ X) as (sc & I & _). intros E. rewrite E in I. exact I. }
  destruct (no_cur _ N) as [X|X]; [contradiction|].
  assert (Vc : valid (sc_name (cur_schema s))) by (pose proof (no_valid _ N) as V; rewrite Forall_forall in V; apply V; apply nth_In; exact X).
  assert (Pa : schema_parse d = Ok (mkSchema [] [] [] 0 0 0 Little false [] [] [])).
  { unfold schema_parse, parseNodeProps. rewrite A. cbn [map]. unfold parseChildrenAsProps. cbn [is_nil schema_props]. rewrite (no_props_no_children d schema_props P).
    - reflexivity.
    - intros I. apply mem_str_In in I. vm_compute in I. discriminate. }
  unfold validate_schema. rewrite Pa. cbn [bind sc_name is_nil].
  assert (Nn : is_nil (sc_name (cur_schema s)) = false) by (destruct (sc_name (cur_schema s)); [discriminate Vc|reflexivity]). rewrite Nn. cbn [negb guard bind].
  rewrite (find_idx_name _ (pr_cur s) (cur_schema s) (no_nodup _ N)) by (apply nth_error_nth'; exact X). cbn [sc_props forallb guard bind]. destruct s. reflexivity.
Qed.
Print Assumptions C33_omitted.
(** more than the absence of contradictions is demanded: the texts have to be the same, and a property that the first
    file omits may not be supplied later *)
Definition ex_agree (v1 v2 : list (string * string)) : list node := [el "schema" (("name", "s") :: v1) []; el "schema" (("name", "s") :: v2) []].
Theorem C33_accepted_refuted :
  validate false no_stod (ex_agree [("version", "1")] [("version", "0x1")]) = Err /\ denotes (T "1") 1 /\ denotes (T "0x1") 1 /\
  validate false no_stod (ex_agree [] [("version", "1")]) = Err /\ is_Ok (validate false no_stod (ex_agree [("version", "1")] [])) = true.
Proof.
  split; [vm_compute; reflexivity|]. do 2 (split; [apply stoll_spec; vm_compute; reflexivity|]). split; vm_compute; reflexivity.
Qed.
Print Assumptions C33_accepted_refuted.
Example C33_ex : validate false no_stod (ex_agree [("version", "3"); ("endian", "big")] [("endian", "big")]) =
  Ok (mkProtocol [mkSchema (T "s") [] [] 0 3 0 Big false [(T "name", T "s"); (T "version", T "3"); (T "endian", T "big")] [] []] 0 false no_stod) /\
  validate false no_stod (ex_agree [("endian", "big")] [("endian", "little")]) = Err.
Proof. split; vm_compute; reflexivity. Qed.

(** ** C32 *)
(** everything available before stays available *)
Theorem C32_property_kept : forall e e' k, later_dsl (e_dsl e) (e_dsl e') -> prop_supported e k = true -> prop_supported e' k = true.
Proof. intros e e' k H. unfold prop_supported, supports, later_dsl in *. destruct (assoc k prop_versions); [lia|auto]. Qed.
Print Assumptions C32_property_kept.
(** every check of the parser: supported from its version on or if there is no dslVersion *)
Theorem C32_features : forall e,
  (forall k v, In (k, v) property_since -> (prop_supported e k = true <-> available v (e_dsl e))) /\
  (forall k, ~ In k (map fst property_since) -> prop_supported e k = true) /\
  (forall f v, In (f, v) [(field_refs_supported, 2); (sem_length_supported, 2); (nonunique_specials_supported, 2); (sem_ref_inheritance_supported, 2);
     (alias_supported, 3); (copy_from_bundle_supported, 4); (override_type_supported, 4); (nonint_sem_length_supported, 5); (member_replace_supported, 5);
     (multi_schema_supported, 5); (interface_refs_supported, 6); (foi_in_message_supported, 6); (size_cond_supported, 6); (exists_cond_supported, 6);
     (valid_value_in_string_supported, 7); (validate_min_length_supported, 7); (message_reuse_supported, 7); (valid_cond_in_composite_supported, 7);
     (interface_reuse_supported, 7); (ns_display_supported, 7); (frame_display_supported, 7); (layer_display_supported, 7); (sync_suffix_supported, 8)] ->
   (f e = true <-> available v (e_dsl e))).
Proof.
  intros e. assert (S : forall v, supports e v = true <-> available v (e_dsl e)) by (intros v; unfold supports, available; lia). split; [|split].
  - intros k v H. unfold prop_supported. enough (X : assoc k prop_versions = Some v) by (rewrite X; apply S).
    cbn in H. repeat (destruct H as [[= <- <-]|H]; [vm_compute; reflexivity|]). destruct H.
  - intros k H. unfold prop_supported. destruct (assoc k prop_versions) eqn:E; [|reflexivity]. exfalso. apply H. apply assoc_In in E. apply (in_map fst) in E. exact E.
  - intros f v H. cbn in H. repeat (destruct H as [[= <- <-]|H]; [apply S|]). destruct H.
Qed.
Print Assumptions C32_features.
(** an effect: fixedValue is what the text says from version 7 on and ignored before *)
Theorem C32_fixed_value : forall fuel e x n f vs, field_parse fuel e x n = Ok f -> f_kind f <> KRef -> supplied n (T "reuse") [] -> supplied n (T "fixedValue") vs ->
  (c_fixedValue (f_common f) = true <-> available 7 (e_dsl e) /\ exists v, vs = [v] /\ bool_text v true) /\
  (available 7 (e_dsl e) -> forall v, In v vs -> exists b, bool_text v b).
Proof.
  intros fuel e x n f vs H Nk R S. apply field_parse_inv in H as (fuel' & k & p & c0 & old & repl & c & -> & Hk & Hp & Hr & Hrep & Hc & Hkp & Hv).
  apply kind_parse_common in Hkp as (Ek & _ & _ & _ & _ & Ec). rewrite Ec by congruence.
  pose proof (supplied_det _ _ _ _ R (common_supplied _ _ _ (L "reuse") Hp ltac:(apply In_dec_eval; reflexivity))) as Er.
  pose proof (supplied_det _ _ _ _ S (common_supplied _ _ _ (L "fixedValue") Hp ltac:(apply In_dec_eval; reflexivity))) as Es.
  assert (F0 : c_fixedValue c0 = false).
  { unfold check_reuse in Hr. apply bind_Ok in Hr as (u & _ & Hr). rewrite find_values, <- Er in Hr. cbn [hd_error] in Hr. injection Hr as <- <-. reflexivity. }
  assert (B : bool_prop e p (L "fixedValue") false = Ok (c_fixedValue c)).
  { unfold update_common in Hc. do 3 (apply bind_Ok in Hc as (? & _ & Hc)). apply bind_Ok in Hc as ([[? ?] ?] & _ & Hc). do 2 (apply bind_Ok in Hc as (? & _ & Hc)).
    apply bind_Ok in Hc as (fx & Hf & Hc). rewrite F0 in Hf. rewrite Hf. do 6 (apply bind_Ok in Hc as (? & _ & Hc)). injection Hc as <-. reflexivity. }
  assert (A : prop_supported e (L "fixedValue") = true <-> available 7 (e_dsl e)) by (apply (C32_features e); do 18 (try (left; reflexivity); right); left; reflexivity).
  pose proof (bool_prop_once _ _ _ _ _ B) as O. unfold bool_prop in B. apply bind_Ok in B as (u & Hs & B). rewrite find_values, <- Es in B.
  unfold parseValidateSinglePropInstance in Hs. rewrite count_values, <- Es in Hs.
  destruct vs as [|v [|w vs]]; cbn [hd_error] in B.
  - injection B as <-. split; [split; [discriminate|intros (_ & v & ? & _); discriminate]|intros _ v []].
  - destruct (prop_supported e (L "fixedValue")); cbn [negb] in B.
    + apply of_opt_Ok, bool_text_spec in B. split; [split|].
      * intros X. rewrite X in B. split; [apply A; reflexivity|eauto].
      * intros (_ & v' & [= <-] & B'). apply bool_text_spec in B, B'. congruence.
      * intros _ v' [<-|[]]. eauto.
    + injection B as <-. split; [split; [discriminate|intros (X & _); apply A in X; discriminate]|]. intros X. apply A in X. discriminate.
  - exfalso. cbn in Hs. discriminate.
Qed.
Print Assumptions C32_fixed_value.
(** acceptance itself is not monotone: a property that is ignored by an old dslVersion may be wrong *)
Definition ex_dsl (v : string) : list node :=
  [el "schema" [("name", "s"); ("dslVersion", v)] [el "fields" [] [el "int" [("name", "f"); ("type", "uint8"); ("fixedValue", "maybe")] []]]].
Theorem C32_acceptance_refuted : is_Ok (validate false no_stod (ex_dsl "6")) = true /\ validate false no_stod (ex_dsl "7") = Err /\ validate false no_stod (ex_dsl "0") = Err.
Proof. do 2 (split; [vm_compute; reflexivity|]). vm_compute. reflexivity. Qed.
Print Assumptions C32_acceptance_refuted.
Example C32_ex : map (fun d => match parse_field (mkEnv 10 d Big (fun _ => None) (fun _ => None) (fun _ => None) (fun _ => None) (fun _ => None) (fun _ => None) (fun _ => None) (fun _ => None) (fun _ => Ok []))
    global_ctx (el "int" [("name", "f"); ("type", "uint8"); ("fixedValue", "TRUE")] []) with Ok f => c_fixedValue (f_common f) | _ => false end) [0; 1; 6; 7; 8] = [true; false; false; true; true].
Proof. vm_compute. reflexivity. Qed.
