(** The properties of fields for every field of an accepted protocol. *)
From Coq Require Import Sorting.Sorted.
From Verif.Model Require Import Base Common Xml Units Field FieldCommon IntField EnumField SetField FloatField OptCond Composite Message Frame Protocol.
From Verif.Spec Require Import Texts Ints Versions IntSpec EnumSpec XmlSpec FieldSpec ProtocolSpec WholeSpec LengthSpec Ex.
From Verif.Proofs Require Import BaseFacts CommonFacts FieldInv FieldFacts LengthFacts ProtocolFacts WholeFacts.
From Verif.Props Require Import PInt PEnum ExProtocol.
Local Open Scope string_scope. Local Open Scope Z_scope. Local Open Scope list_scope.

Section Whole.
Variables (multi : bool) (stod : txt -> option spec_float) (docs : list node) (s : protocol).
Hypothesis accepted_protocol : validate multi stod docs = Ok s.
Lemma whole_leaf f : field_in s f -> leaf_reachable f.
Proof. intros H. exact (all_here _ _ (derived_leaves _ (field_in_derived _ _ _ _ _ accepted_protocol H))). Qed.

(** <int> *)
Theorem C08_int_in_protocol : forall c i, field_in s (FInt c i) ->
  (i_serOffset i = 0 -> forall v, reported_range (i_type i) (i_min i) (i_max i) v <-> wire_values (i_type i) (i_length i) (i_bitLength i) v) /\
  forall v, reported_range (i_type i) (i_typeMin i) (i_typeMax i) v <-> type_values (i_type i) v.
Proof. intros c i H. apply whole_leaf in H. split; [apply C08_limits_are_serialisable_values; exact H|apply C08_type_limits; exact H]. Qed.
Theorem C10_int_in_protocol : forall c i, field_in s (FInt c i) -> exists v, stands_for (i_type i) (i_default i) v /\ type_values (i_type i) v.
Proof. intros c i H. apply whole_leaf in H. apply C10_default_fits_type. exact H. Qed.
Theorem C11_int_in_protocol : forall c i, field_in s (FInt c i) -> NoDup (map fst (i_specials i)) /\
  Forall (fun x => identifier (fst x) /\ exists v, stands_for (i_type i) (v_value (snd x)) v /\ type_values (i_type i) v) (i_specials i).
Proof.
  intros c i H. apply whole_leaf in H. destruct (C11_special_names_unique _ H) as [A B]. pose proof (C11_special_values_fit _ H) as C. split; [exact A|].
  rewrite Forall_forall in *. auto.
Qed.
Theorem C13_int_in_protocol : forall c i, field_in s (FInt c i) -> StronglySorted (value_order (i_type i)) (i_ranges i).
Proof. intros c i H. apply whole_leaf in H. apply C13_ranges_sorted. exact H. Qed.
Theorem C14_int_in_protocol : forall c i, field_in s (FInt c i) ->
  1 <= i_length i <= type_bytes (i_type i) /\ 0 <= i_bitLength i <= 8 * i_length i /\ (variable_type (i_type i) -> i_bitLength i = 8 * i_length i).
Proof. intros c i H. apply whole_leaf in H. apply C14_int_lengths. exact H. Qed.
(** <enum> *)
Theorem C08_enum_in_protocol : forall c i, field_in s (FEnum c i) ->
  forall v, (reported_range (en_type i) (en_min i) (en_max i) v <-> wire_values (en_type i) (en_length i) (en_bitLength i) v) /\
            (reported_range (en_type i) (en_typeMin i) (en_typeMax i) v <-> type_values (en_type i) v).
Proof. intros c i H. apply whole_leaf in H. apply C08_enum_limits. exact H. Qed.
Theorem C10_enum_in_protocol : forall c i, field_in s (FEnum c i) -> exists v, stands_for (en_type i) (en_default i) v /\ type_values (en_type i) v.
Proof. intros c i H. apply whole_leaf in H. apply C10_enum_default_fits_type. exact H. Qed.
Theorem C14_enum_in_protocol : forall c i, field_in s (FEnum c i) ->
  1 <= en_length i <= type_bytes (en_type i) /\ 0 <= en_bitLength i <= 8 * en_length i /\ (variable_type (en_type i) -> en_bitLength i = 8 * en_length i).
Proof. intros c i H. apply whole_leaf in H. apply C14_enum_lengths. exact H. Qed.
Theorem C15_in_protocol : forall c i, field_in s (FEnum c i) -> en_values i <> [] /\ NoDup (map fst (en_values i)) /\
  Forall (fun x => identifier (fst x) /\ exists v, stands_for (en_type i) (v_value (snd x)) v /\ type_values (en_type i) v) (en_values i).
Proof.
  intros c i H. apply whole_leaf in H. destruct (C15_not_empty_and_named _ H) as (A & B & C). pose proof (C15_values_fit_type _ H) as D. split; [exact A|]. split; [exact B|].
  rewrite Forall_forall in *. auto.
Qed.
(** <set> *)
Theorem C16_in_protocol : forall c i, field_in s (FSet c i) -> NoDup (map fst (s_bits i)) /\ Forall (fun x => identifier (fst x)) (s_bits i) /\
  (s_nonUnique i = false -> NoDup (map (fun x => b_idx (snd x)) (s_bits i))).
Proof.
  intros c i H. apply whole_leaf in H. destruct (C16_bit_names_unique _ H) as [A B]. split; [exact A|]. split; [exact B|]. apply C16_indices_unique. exact H.
Qed.
Theorem C17_in_protocol : forall c i, field_in s (FSet c i) -> exists t, s_type i = Some t /\ unsigned_type t /\ 1 <= s_length i <= type_bytes t /\ 1 <= s_bitLength i <= 8 * s_length i.
Proof. intros c i H. apply whole_leaf in H. apply C17_set_lengths. exact H. Qed.
(** lengths *)
Theorem C19_in_protocol : forall f m, field_in s f -> max_length f = Ok m -> 0 <= min_length f <= m /\ m < 2 ^ 64.
Proof.
  intros f m H E. apply (field_in_derived _ _ _ _ _ accepted_protocol), derived_total in H.
  assert (B : all base_ok f) by (eapply all_impl; [|exact H]; unfold total_ok; tauto).
  destruct (lengths_ok _ B) as [U L]. apply L in E as [V E]. unfold u64 in *. change two64 with (2 ^ 64) in *. lia.
Qed.
(** missing: as in C20_not_above_max_partial, C20_not_below_min_partial *)
Theorem C20_in_protocol_partial : forall f n, field_in s f -> sane_bitfields f -> takes f n ->
  (forall m, max_length f = Ok m -> 0 <= n <= m \/ m = 2 ^ 64 - 1) /\ (plain f -> min_length f <= n).
Proof.
  intros f n H S T. apply (field_in_derived _ _ _ _ _ accepted_protocol), derived_total in H. split.
  - intros m E. destruct (takes_bounds False f H (fun x => match x with end) S n T) as [N [_ W]]. destruct (W _ E) as [X | ->]; [left; lia|right; reflexivity].
  - intros P. destruct (takes_bounds True f H (fun _ => P) S n T) as [_ [W _]]. apply W. exact I.
Qed.
(** names *)
Theorem C22_in_protocol : forall f, field_in s f -> identifier (f_name f) /\ NoDup (map f_name (f_members f)) /\ Forall (fun m => identifier (f_name m)) (f_members f).
Proof.
  intros f H. apply (field_in_derived _ _ _ _ _ accepted_protocol) in H. pose proof (derived_names _ H) as N. split; [apply parseIsValidName_spec; exact (all_here _ _ N)|].
  split; [exact (all_here _ _ (derived_distinct _ H))|]. apply Forall_forall. intros m M. apply parseIsValidName_spec. apply (all_part_of _ _ _ N). apply part_of_parts. destruct f; cbn in *; auto; contradiction.
Qed.
End Whole.
Print Assumptions C08_int_in_protocol. Print Assumptions C10_int_in_protocol. Print Assumptions C11_int_in_protocol. Print Assumptions C13_int_in_protocol.
Print Assumptions C14_int_in_protocol. Print Assumptions C08_enum_in_protocol. Print Assumptions C10_enum_in_protocol. Print Assumptions C14_enum_in_protocol.
Print Assumptions C15_in_protocol. Print Assumptions C16_in_protocol. Print Assumptions C17_in_protocol. Print Assumptions C19_in_protocol.
Print Assumptions C20_in_protocol_partial. Print Assumptions C22_in_protocol.

(** the fields of the example protocol: global, of a message, of a layer *)
Definition ex_global_field : field := nth 0 (ns_fields_list (ex_ns 0 ["a"; "b"])) dummy_field.
Definition ex_message_field : field := nth 0 (flat_map m_fields (ns_messages_list (ex_ns 0 ["a"]))) dummy_field.
Lemma ex_field_in : field_in ex_proto ex_global_field /\ field_in ex_proto ex_message_field.
Proof.
  split.
  - apply (in_global _ (ex_schema 0) [T "a"; T "b"]); [vm_compute; auto|]. exists (ex_ns 0 ["a"; "b"]). split; [|vm_compute; auto].
    apply (na_sub _ (T "a") (ex_ns 0 ["a"])); [vm_compute; auto|]. apply na_here. vm_compute. auto.
  - apply (in_message _ (ex_schema 0) [T "a"] (nth 1 (ns_messages_list (ex_ns 0 ["a"])) empty_message)); [vm_compute; auto| |vm_compute; auto].
    exists (ex_ns 0 ["a"]). split; [apply na_here; vm_compute; auto|vm_compute; auto].
Qed.
Example whole_ex : f_name ex_global_field = T "f1" /\ f_name ex_message_field = T "x" /\ f_kind ex_global_field = KInt /\ f_kind ex_message_field = KRef /\
  0 <= min_length ex_message_field /\ identifier (f_name ex_message_field).
Proof.
  do 4 (split; [vm_compute; reflexivity|]). split; [vm_compute; discriminate|]. apply (C22_in_protocol _ _ _ _ ex_accepted). apply ex_field_in.
Qed.
