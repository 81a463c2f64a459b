(** C42, C43, C44, C45, C48: the attributes of fields. *)
From Verif.Model Require Import Base Common Xml Units Field FieldCommon IntField EnumField SetField FloatField OptCond Composite.
From Verif.Spec Require Import Texts Ints Versions IntSpec XmlSpec FieldSpec HeaderSpec DslSpec AttrSpec Ex.
From Verif.Proofs Require Import BaseFacts CommonFacts XmlFacts IntInv FieldInv FieldFacts OwnFacts SingleFacts ExFacts CaseFacts AttrFacts AttrFacts2 ExtentFacts.
Local Open Scope string_scope. Local Open Scope Z_scope. Local Open Scope list_scope.

(** ** C42 *)
(** [field_parse] is what parses the elements of fields, wherever they are: global ones, members, elements of lists, ... *)
(** Missing: the override properties are not taken over from the reused field, see below *)
Theorem C42_common_attributes_partial : forall fuel e x n f, field_parse fuel e x n = Ok f -> f_kind f <> KRef ->
  exists old, reuses e n old /\ (forall g, old = Some g -> f_kind g = f_kind f) /\ common_given e n old (f_common f).
Proof. exact common_attributes. Qed.
Print Assumptions C42_common_attributes_partial.
Theorem C42_int_attributes : forall fuel e x n c s, (forall t g, e_find e t = Some g -> accepted g) -> field_parse fuel e x n = Ok (FInt c s) ->
  exists old, reuses e n old /\ (forall g, old = Some g -> f_kind g = KInt) /\ int_given e n (of_int old) s.
Proof.
  intros fuel e x n c s Hf H. apply int_attributes in H as (old & A & B & C & _); [eauto|]. clear H.
  intros t d r G. apply Hf in G. clear - G. remember (FInt d r) as f eqn:E. revert d r E. revert f G. fix IH 2. intros f G d r E. destruct G as [e x n f _ Hf H].
  subst f. apply int_attributes in H as (_ & _ & _ & _ & N); [exact N|]. intros t d' r' X. exact (IH _ (Hf _ _ X) _ _ eq_refl).
Qed.
Print Assumptions C42_int_attributes.
Theorem C42_enum_attributes : forall fuel e x n c s, field_parse fuel e x n = Ok (FEnum c s) ->
  exists old, reuses e n old /\ (forall g, old = Some g -> f_kind g = KEnum) /\ enum_given e n (of_enum old) s.
Proof. exact enum_attributes. Qed.
Print Assumptions C42_enum_attributes.
Theorem C42_set_attributes : forall fuel e x n c s, field_parse fuel e x n = Ok (FSet c s) ->
  exists old, reuses e n old /\ (forall g, old = Some g -> f_kind g = KSet) /\ set_given e n (of_set old) s.
Proof. exact set_attributes. Qed.
Print Assumptions C42_set_attributes.
(** Missing: the endian is not taken over from the reused field, see below *)
Theorem C42_float_attributes_partial : forall fuel e x n c s, field_parse fuel e x n = Ok (FFloat c s) ->
  exists old, reuses e n old /\ (forall g, old = Some g -> f_kind g = KFloat) /\ float_given e n (of_float old) s.
Proof. exact float_attributes. Qed.
Print Assumptions C42_float_attributes_partial.
Theorem C42_string_attributes : forall fuel e x n c s pre, x_depr x <= never -> field_parse fuel e x n = Ok (FString c s pre) ->
  exists old, reuses e n old /\ (forall g, old = Some g -> f_kind g = KString) /\ string_given e n c (of_string old) s.
Proof. exact string_attributes. Qed.
Print Assumptions C42_string_attributes.
Theorem C42_data_attributes : forall fuel e x n c s pre, x_depr x <= never -> field_parse fuel e x n = Ok (FData c s pre) ->
  exists old, reuses e n old /\ (forall g, old = Some g -> f_kind g = KData) /\ data_given e n c (of_data old) s.
Proof. exact data_attributes. Qed.
Print Assumptions C42_data_attributes.
Theorem C42_list_attributes : forall fuel e x n c s el a b d t, field_parse fuel e x n = Ok (FList c s el a b d t) ->
  exists old, reuses e n old /\ (forall g, old = Some g -> f_kind g = KList) /\ list_given e n (of_list old) s /\
    (* every element of a list with elements of fixed length takes as much *)
    (l_elemFixedLength s = true -> max_length (snd el) = Ok (min_length (snd el))).
Proof. exact list_attributes. Qed.
Print Assumptions C42_list_attributes.
Theorem C42_optional_attributes : forall fuel e x n c s own f cnd, field_parse fuel e x n = Ok (FOptional c s own f cnd) ->
  exists old, reuses e n old /\ (forall g, old = Some g -> f_kind g = KOptional) /\ optional_given e n (of_opt_field old) s.
Proof. exact optional_attributes. Qed.
Print Assumptions C42_optional_attributes.
Theorem C42_bitfield_endian : forall fuel e x n c en ms vc, field_parse fuel e x n = Ok (FBitfield c en ms vc) ->
  exists old, reuses e n old /\ (forall g, old = Some g -> f_kind g = KBitfield) /\ bitfield_given e n (of_bitfield old) en.
Proof. exact bitfield_attributes. Qed.
Print Assumptions C42_bitfield_endian.
Theorem C42_variant_default : forall fuel e x n c d ms, field_parse fuel e x n = Ok (FVariant c d ms) ->
  exists old, reuses e n old /\ (forall g, old = Some g -> f_kind g = KVariant) /\ variant_given e n ms (of_variant old) d.
Proof. exact variant_attributes. Qed.
Print Assumptions C42_variant_default.
Theorem C42_ref_attributes_partial : forall fuel e x n c b t, field_parse fuel e x n = Ok (FRef c b t) ->
  exists old c1, reuses e n old /\ (forall g, old = Some g -> f_kind g = KRef) /\ common_given e n old c1 /\
   ((exists v, supplied n (T "field") [v] /\ e_find e v = Some t /\ named_after e (f_common t) c1 c) \/
    (exists c2, supplied n (T "field") [] /\ old = Some (FRef c2 b t) /\ c = c1)).
Proof. exact ref_attributes. Qed.
Print Assumptions C42_ref_attributes_partial.

Definition ex_reused_int : node :=
  el "int" [("name", "I"); ("type", "uint16"); ("endian", "Little"); ("scaling", "1/10"); ("units", "Milli Meters"); ("displayDecimals", "3");
            ("signExt", "false"); ("pseudo", "true"); ("readOverride", "Replace"); ("description", "abc"); ("validCheckVersion", "1")] [].
Definition ex_int_field : field := got_field (ex_global [] ex_reused_int).
Lemma ex_int_field_accepted : accepted ex_int_field.
Proof. unfold ex_int_field. ex_acc. Qed.
Example C42_ex : exists c s, ex_global [("I", ex_int_field)] (el "int" [("name", "J"); ("reuse", "I"); ("units", "cm"); ("displayName", "\^x")] [text_el "failOnInvalid" "TRUE"]) = Ok (FInt c s) /\
  c_name c = T "J" /\ c_displayName c = T "^x" /\ c_description c = T "abc" /\ c_pseudo c = true /\ c_failOnInvalid c = true /\
  i_type s = Uint16 /\ i_endian s = Little /\ i_scaling s = (1, 10) /\ i_units s = T "Centimeters" /\ i_displayDecimals s = 3 /\ i_signExt s = false /\
  i_validCheckVersion s = true /\ units_text (T "Milli Meters") (T "Millimeters") /\ ratio_text (T "1/10") (1, 10).
Proof.
  destruct (ex_global [("I", ex_int_field)] (el "int" [("name", "J"); ("reuse", "I"); ("units", "cm"); ("displayName", "\^x")] [text_el "failOnInvalid" "TRUE"])) as [f| |] eqn:E;
    [|vm_compute in E; discriminate|vm_compute in E; discriminate]. vm_compute in E. injection E as <-. do 2 eexists. split; [reflexivity|]. do 11 (split; [reflexivity|]).
  split; [reflexivity|]. split; [apply units_text_spec; vm_compute; reflexivity|].
  eapply (ratio_of _ (T "1") (T "10")); try (vm_compute; intuition discriminate); try reflexivity; try lia; try discriminate; apply stoll_spec; vm_compute; reflexivity.
Qed.
(** the override properties and the endian of <float> are not those of the reused field *)
Theorem C42_override_reuse_refuted : exists f, ex_global [("I", ex_int_field)] (el "int" [("name", "J"); ("reuse", "I")] []) = Ok f /\
  nth 1 override_properties [] = T "readOverride" /\ nth 1 (c_ovr (f_common ex_int_field)) OvrAny = OvrReplace /\ nth 1 (c_ovr (f_common f)) OvrAny = OvrAny /\ accepted f.
Proof.
  destruct (ex_global [("I", ex_int_field)] (el "int" [("name", "J"); ("reuse", "I")] [])) as [f| |] eqn:E; [|vm_compute in E; discriminate|vm_compute in E; discriminate].
  pose proof (ex_accepted _ _ _ _ (Forall_cons ("I"%string, ex_int_field) ex_int_field_accepted (Forall_nil _)) E) as A. vm_compute in E. injection E as E. subst f.
  eexists. split; [reflexivity|]. split; [reflexivity|]. split; [vm_compute; reflexivity|]. split; [reflexivity|exact A].
Qed.
Print Assumptions C42_override_reuse_refuted.
Definition ex_reused_float : node := el "float" [("name", "F"); ("type", "double"); ("endian", "little")] [].
Definition ex_float_field : field := got_field (ex_global [] ex_reused_float).
Lemma ex_float_field_accepted : accepted ex_float_field.
Proof. unfold ex_float_field. ex_acc. Qed.
Theorem C42_float_endian_refuted : exists c s c' s', ex_float_field = FFloat c' s' /\ ex_global [("F", ex_float_field)] (el "float" [("name", "G"); ("reuse", "F")] []) = Ok (FFloat c s) /\
  f_endian s' = Little /\ f_endian s = Big /\ f_type s = Float64 /\ accepted (FFloat c s).
Proof.
  destruct (ex_global [("F", ex_float_field)] (el "float" [("name", "G"); ("reuse", "F")] [])) as [f| |] eqn:E; [|vm_compute in E; discriminate|vm_compute in E; discriminate].
  pose proof (ex_accepted _ _ _ _ (Forall_cons ("F"%string, ex_float_field) ex_float_field_accepted (Forall_nil _)) E) as A. vm_compute in E. injection E as E. subst f.
  eexists _, _, _, _. split; [vm_compute; reflexivity|]. split; [reflexivity|]. split; [reflexivity|]. split; [reflexivity|]. split; [reflexivity|exact A].
Qed.
Print Assumptions C42_float_endian_refuted.

(** ** C43 *)
(** bytes are written as pairs of hexadecimal digits, spaces between them are skipped; a text that is neither this nor a reference is no value *)
Theorem C43_data_literals : forall e v l, data_value e v = Some l <-> bytes_read e v l.
Proof. exact bytes_read_spec. Qed.
Print Assumptions C43_data_literals.
Theorem C43_bytes_exact : forall v l, hex_pairs v l -> Z.of_nat (length v) = 2 * Z.of_nat (length l) /\ Forall (fun b => 0 <= b < 256) l.
Proof.
  induction 1 as [|a b x y v l [A _] [B _] _ [IH1 IH2]]; [split; [reflexivity|constructor]|]. cbn [length]. split; [lia|]. constructor; [lia|exact IH2].
Qed.
Print Assumptions C43_bytes_exact.
Theorem C43_string_literals : forall e v a, deref_string e v = Some a <-> text_read e v a.
Proof. exact text_read_spec. Qed.
Print Assumptions C43_string_literals.
Theorem C43_string_values : forall fuel e x n c s pre, x_depr x <= never -> field_parse fuel e x n = Ok (FString c s pre) ->
  exists old, reuses e n old /\ (forall g, old = Some g -> f_kind g = KString) /\
    values_given e n c (text_read e) char_rank (kept (of_string old) st_default []) (kept (of_string old) st_valid []) (st_default s) (st_valid s).
Proof. intros fuel e x n c s pre D H. apply string_attributes in H as (old & A & B & C); [|exact D]. exists old. destruct C; auto. Qed.
Print Assumptions C43_string_values.
Theorem C43_data_values : forall fuel e x n c s pre, x_depr x <= never -> field_parse fuel e x n = Ok (FData c s pre) ->
  exists old, reuses e n old /\ (forall g, old = Some g -> f_kind g = KData) /\
    values_given e n c (bytes_read e) (fun b => b) (kept (of_data old) d_default []) (kept (of_data old) d_valid []) (d_default s) (d_valid s).
Proof. intros fuel e x n c s pre D H. apply data_attributes in H as (old & A & B & C); [|exact D]. exists old. destruct C; auto. Qed.
Print Assumptions C43_data_values.
Definition ex_data : node := el "data" [("name", "D"); ("defaultValue", "0a Fe 1 2"); ("validValue", "ff")] [el "validValue" [("value", "01 02")] []; el "validValue" [("sinceVersion", "3")] [TextNode (T "01")]].
Example C43_ex : exists c s pre, ex_global [] ex_data = Ok (FData c s pre) /\ d_default s = [10; 254; 18] /\
  d_valid s = [mkVV [1] 3 never; mkVV [1; 2] 0 never; mkVV [255] 0 never] /\ x_depr global_ctx <= never /\
  bytes_read (ex_fenv []) (T "0a Fe 1 2") [10; 254; 18] /\ hex_pairs (T "0aFe12") [10; 254; 18] /\ (forall l, ~ bytes_read (ex_fenv []) (T "abc") l).
Proof.
  destruct (ex_global [] ex_data) as [f| |] eqn:E; [|vm_compute in E; discriminate|vm_compute in E; discriminate]. vm_compute in E. injection E as <-. do 3 eexists. split; [reflexivity|].
  split; [reflexivity|]. split; [reflexivity|]. split; [cbn; lia|]. split; [apply bytes_read_spec; vm_compute; reflexivity|].
  split; [apply hex_pairs_spec; vm_compute; reflexivity|]. intros l H. apply bytes_read_spec in H. vm_compute in H. discriminate.
Qed.

(** ** C44 *)
(** at every depth of an accepted field *)
Theorem C44_one_extent_partial : forall f g, accepted f -> part_of g f -> one_extent g.
Proof. intros f g A P. exact (all_part_of _ _ _ (accepted_extent _ A) P). Qed.
Print Assumptions C44_one_extent_partial.
(** Missing: a length prefix that is another member of the message or bundle does not exclude the other ways *)
Definition ex_both : node :=
  el "bundle" [("name", "B")] [el "int" [("name", "a"); ("type", "uint8")] []; el "string" [("name", "s"); ("length", "5"); ("lengthPrefix", "$a")] [];
                               el "string" [("name", "t"); ("zeroTermSuffix", "true"); ("lengthPrefix", "$a")] []].
Theorem C44_sibling_prefix_refuted : exists c a s1 s2 c1 c2, ex_global [] ex_both = Ok (FBundle c [a; FString c1 s1 None; FString c2 s2 None] [] None) /\
  st_length s1 = 5 /\ st_detached s1 = T "a" /\ st_zeroSuffix s2 = true /\ st_detached s2 = T "a" /\ accepted (got_field (ex_global [] ex_both)).
Proof.
  destruct (ex_global [] ex_both) as [f| |] eqn:E; [|vm_compute in E; discriminate|vm_compute in E; discriminate]. rewrite <- E.
  assert (A : accepted (got_field (ex_global [] ex_both))) by ex_acc. vm_compute in E. injection E as <-. do 6 eexists. split; [vm_compute; reflexivity|]. do 4 (split; [reflexivity|]). exact A.
Qed.
Print Assumptions C44_sibling_prefix_refuted.
Definition ex_len_prefix : node := el "string" [("name", "S")] [el "lengthPrefix" [] [el "int" [("name", "p"); ("type", "uint8")] []]].
Definition ex_prefixed : field := got_field (ex_global [] ex_len_prefix).
Lemma ex_prefixed_accepted : accepted ex_prefixed.
Proof. unfold ex_prefixed. ex_acc. Qed.
(** also by reuse *)
Example C44_ex : (exists c s pre, ex_prefixed = FString c s (Some pre)) /\ ex_global [("S", ex_prefixed)] (el "string" [("name", "T"); ("reuse", "S"); ("length", "5")] []) = Err /\
  ex_global [("S", ex_prefixed)] (el "string" [("name", "T"); ("reuse", "S"); ("zeroTermSuffix", "true")] []) = Err /\
  is_Ok (ex_global [("S", ex_prefixed)] (el "string" [("name", "T"); ("reuse", "S")] [])) = true /\
  ex_global [] (el "list" [("name", "L"); ("count", "3"); ("countPrefix", "C")] [el "int" [("name", "p"); ("type", "uint8")] []]) = Err /\
  is_Ok (ex_global [] (el "list" [("name", "L"); ("count", "3")] [el "int" [("name", "p"); ("type", "uint8")] []])) = true.
Proof.
  split; [vm_compute; do 3 eexists; reflexivity|]. split; [vm_compute; reflexivity|]. split; [vm_compute; reflexivity|]. split; [vm_compute; reflexivity|]. split; vm_compute; reflexivity.
Qed.

(** ** C45 *)
(** Missing: texts of numbers from 2^31, see below *)
Theorem C45_min_length_partial : forall fuel e x n f v z, field_parse fuel e x n = Ok f ->
  supplied n (T "validateMinLength") [v] -> denotes v z -> 0 <= z < 2 ^ 31 -> available 7 (e_dsl e) -> min_length f = z.
Proof.
  intros fuel e x n f v z H S D B A.
  assert (X : exists old c1, common_given e n old c1 /\ c_validateMinLength (f_common f) = c_validateMinLength c1).
  { destruct f; try (apply common_attributes in H as (old & _ & _ & C); [exists old; eexists; split; [exact C|reflexivity]|discriminate]).
    apply ref_attributes in H as (old & c1 & _ & _ & C & [(w & _ & _ & N)|(c2 & _ & _ & ->)]); exists old, c1; (split; [exact C|]); [|reflexivity].
    destruct (na_rest _ _ _ _ N) as (_ & _ & _ & R & _). exact R. }
  destruct X as (old & c1 & C & Ec). pose proof (cg_min _ _ _ _ C) as G.
  assert (E : c_validateMinLength (f_common f) = z).
  { rewrite Ec. destruct G as [v' S' R|S' _]; [|pose proof (supplied_det _ _ _ _ S S'); discriminate]. pose proof (supplied_det _ _ _ _ S S') as X. injection X as <-.
    destruct R as [[_ (y & (z' & D' & Bz & ->) & R)]|[N _]]; [|contradiction]. assert (z' = z) by (eapply denotes_det; eassumption). subst z'.
    change (2 ^ 31) with 2147483648 in *. change (2 ^ 32) with 4294967296 in *. rewrite Z.mod_small in R by lia. lia. }
  rewrite <- E. eapply min_length_checked; [exact H|]. rewrite E. exact B.
Qed.
Print Assumptions C45_min_length_partial.

(** the number is also checked when it comes from a reused field *)
Theorem C45_recorded_min_length : forall fuel e x n f, field_parse fuel e x n = Ok f -> 0 <= c_validateMinLength (f_common f) < 2 ^ 31 ->
  min_length f = c_validateMinLength (f_common f).
Proof. exact min_length_checked. Qed.
Print Assumptions C45_recorded_min_length.
Definition ex_min (v : string) : node := el "int" [("name", "I"); ("type", "uint16"); ("validateMinLength", v)] [].
Example C45_ex : is_Ok (ex_global [] (ex_min "2")) = true /\ ex_global [] (ex_min "1") = Err /\ ex_global [] (ex_min "3") = Err /\
  is_Ok (ex_global [] (el "ref" [("name", "R"); ("field", "I"); ("validateMinLength", "1")] [])) = false /\
  is_Ok (ex_global [("I", ex_int_field)] (el "ref" [("name", "R"); ("field", "I"); ("validateMinLength", "2")] [])) = true.
Proof. do 4 (split; [vm_compute; reflexivity|]). vm_compute; reflexivity. Qed.
(** numbers from 2^31 are not checked, others wrap *)
Theorem C45_big_numbers_refuted : exists f g, ex_global [] (ex_min "2147483648") = Ok f /\ min_length f = 2 /\
  ex_global [] (ex_min "4294967298") = Ok g /\ min_length g = 2 /\ denotes (T "2147483648") 2147483648 /\ denotes (T "4294967298") 4294967298.
Proof.
  destruct (ex_global [] (ex_min "2147483648")) as [f| |] eqn:E; [|vm_compute in E; discriminate|vm_compute in E; discriminate].
  destruct (ex_global [] (ex_min "4294967298")) as [g| |] eqn:F; [|vm_compute in F; discriminate|vm_compute in F; discriminate].
  vm_compute in E, F. injection E as <-. injection F as <-. do 2 eexists. split; [reflexivity|]. split; [vm_compute; reflexivity|]. split; [reflexivity|]. split; [vm_compute; reflexivity|].
  split; apply stoll_spec; vm_compute; reflexivity.
Qed.
Print Assumptions C45_big_numbers_refuted.

(** ** C48 *)
Theorem C48_bool_texts : forall v b, parseStrToBool v = Some b <-> bool_text v b.
Proof. exact bool_text_spec. Qed.
Print Assumptions C48_bool_texts.
Theorem C48_endian_texts : forall v d en, v <> [] -> (parseEndian v d = Some en <-> endian_text v en).
Proof. exact endian_text_spec. Qed.
Print Assumptions C48_endian_texts.
Theorem C48_unit_texts : forall v u, parseStrToUnits v = Some u <-> units_text v u.
Proof. exact units_text_spec. Qed.
Print Assumptions C48_unit_texts.
Theorem C48_override_texts : forall v o, override_of v = Some o <-> override_text v o.
Proof. exact override_text_spec. Qed.
Print Assumptions C48_override_texts.
Theorem C48_semantic_texts : forall v t, sem_of v = Some t <-> sem_text v t.
Proof. exact sem_text_spec. Qed.
Print Assumptions C48_semantic_texts.
Theorem C48_type_texts : forall v t, int_type_of v = Some t <-> int_type_text v t.
Proof. exact int_type_text_spec. Qed.
Print Assumptions C48_type_texts.
Theorem C48_float_type_texts : forall v t, float_type_of v = Some t <-> float_type_text v t.
Proof. exact float_type_text_spec. Qed.
Print Assumptions C48_float_type_texts.
(** the texts of each unit are as documented, and no text stands for two units *)
Example C48_units_ex : units_text (T "Kilo Metres / Hour") (T "KilometersPerHour") /\ units_text (T "us") (T "Microseconds") /\ units_text (T "kV") (T "Kilovolts") /\
  (forall u, ~ units_text (T "parsec") u) /\ length unit_texts = 43%nat /\
  NoDup (concat (map snd unit_texts)).
Proof.
  split; [apply units_text_spec; vm_compute; reflexivity|]. split; [apply units_text_spec; vm_compute; reflexivity|]. split; [apply units_text_spec; vm_compute; reflexivity|].
  split; [intros u H; apply units_text_spec in H; vm_compute in H; discriminate|]. split; [reflexivity|].
  assert (D : forall l : list txt, (fix go (l : list txt) := match l with [] => true | a :: r => negb (mem_str a r) && go r end) l = true -> NoDup l).
  { induction l as [|a l IH]; intros H; [constructor|]. apply andb_true_iff in H as [H1 H2]. constructor; [|auto]. apply mem_str_nIn. apply negb_true_iff. exact H1. }
  apply D. vm_compute. reflexivity.
Qed.
(** a field only has a semantic type its kind allows in this version of the DSL *)
Theorem C48_semantic_types_allowed : forall fuel e x n f, field_parse fuel e x n = Ok f -> may_mean e f (c_sem (f_common f)).
Proof. exact semantic_allowed. Qed.
Print Assumptions C48_semantic_types_allowed.
Example C48_ex : ex_global [] (el "string" [("name", "s"); ("semanticType", "length")] []) = Err /\
  (exists f, ex_global [] (el "int" [("name", "s"); ("type", "int8"); ("semanticType", "Length")] []) = Ok f /\ c_sem (f_common f) = SemLength) /\
  ex_global [] (el "int" [("name", "s"); ("type", "int8"); ("semanticType", "messageId")] []) = Err.
Proof.
  split; [vm_compute; reflexivity|]. split; [|vm_compute; reflexivity].
  destruct (ex_global [] (el "int" [("name", "s"); ("type", "int8"); ("semanticType", "Length")] [])) as [f| |] eqn:E; [|vm_compute in E; discriminate|vm_compute in E; discriminate].
  vm_compute in E. injection E as <-. eexists. split; reflexivity.
Qed.
