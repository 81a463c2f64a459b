(** Properties C15-C17 and the <enum> parts of C08, C10, C14. *)
From Verif.Model Require Import Base Common Xml Units Field FieldCommon IntField EnumField SetField.
From Verif.Spec Require Import Texts Ints Versions IntSpec EnumSpec.
From Verif.Proofs Require Import BaseFacts CommonFacts IntFacts RangeFacts IntInv EnumInv.
From Verif.Props Require Import PInt.

Definition ex_enum_in (inBf : bool) (attrs : list (string * string)) (children : list node) (old : option enum_state) :=
  let n := Elem (L "enum") (ex_attrs attrs) children in
  enum_parse ex_env (ex_common 0 inBf) (parseNodeProps n) n old.
Definition ex_enum := ex_enum_in false.
Lemma ex_enum_reach b a ch s : ex_enum_in b a ch None = Ok s -> enum_reachable s.
Proof. intros H. eapply er_fresh; [apply ex_env_ok|exact H]. Qed.
Lemma ex_enum_reach2 b a ch o s : enum_reachable o -> ex_enum_in b a ch (Some o) = Ok s -> enum_reachable s.
Proof. intros Ho H. eapply er_reuse; [apply ex_env_ok|exact Ho|exact H]. Qed.
Definition ex_val (name val : string) : node := ex_child "validValue" [("name", name); ("val", val)]%string.

Definition ex_set_in (inBf : bool) (attrs : list (string * string)) (children : list node) (old : option set_state) :=
  let n := Elem (L "set") (ex_attrs attrs) children in
  set_parse ex_env (ex_common 0 inBf) (parseNodeProps n) n old.
Definition ex_set := ex_set_in false.
Lemma ex_set_reach b a ch s : ex_set_in b a ch None = Ok s -> set_reachable s.
Proof. intros H. eapply sr_fresh; exact H. Qed.
Lemma ex_set_reach2 b a ch o s : set_reachable o -> ex_set_in b a ch (Some o) = Ok s -> set_reachable s.
Proof. intros Ho H. eapply sr_reuse; [exact Ho|exact H]. Qed.
Definition ex_bit (name idx : string) : node := ex_child "bit" [("name", name); ("idx", idx)]%string.

(** ** C15 *)
Theorem C15_not_empty_and_named : forall s, enum_reachable s ->
  en_values s <> [] /\ NoDup (map fst (en_values s)) /\ Forall (fun x => identifier (fst x)) (en_values s).
Proof.
  intros s H. apply enum_reachable_inv in H. destruct (einv_vals _ H) as [N F].
  split; [apply (einv_nonempty _ H)|]. split; [exact N|].
  eapply Forall_impl; [|exact F]. intros x (X & _). apply parseIsValidName_spec. exact X.
Qed.
Print Assumptions C15_not_empty_and_named.
Theorem C15_values_fit_type : forall s, enum_reachable s ->
  Forall (fun x => exists v, stands_for (en_type s) (v_value (snd x)) v /\ type_values (en_type s) v) (en_values s).
Proof.
  intros s H. apply enum_reachable_inv in H. destruct (einv_vals _ H) as [N F].
  eapply Forall_impl; [|exact F]. intros x (_ & X & Y). apply in_limits_spec in Y; auto.
Qed.
Print Assumptions C15_values_fit_type.
(** the values are those of the reused field followed by one per <validValue> element *)
Theorem C15_values_as_written : forall e c p n old s, env_num_ok e -> enum_start_ok old -> c_deprecated c <= never ->
  enum_parse e c p n old = Ok s ->
  special_elements e (en_type s) (c_since c) (c_deprecated c) (match old with Some o => en_values o | None => [] end)
     (parseGetChildrenNamed n (L "validValue")) (en_values s).
Proof.
  intros e c p n old s He Ho Hd H. apply enum_start_inv in Ho.
  destruct (enum_parse_facts _ _ _ _ _ _ He Ho H) as (_ & _ & (new & _ & _ & X & _) & _). apply X, Hd.
Qed.
Print Assumptions C15_values_as_written.
(** missing: an enum that reuses one with repeated values *)
Theorem C15_values_unique_partial : forall e c p n old s, env_num_ok e -> enum_start_ok old ->
  enum_parse e c p n old = Ok s -> en_nonUnique s = false ->
  (forall o, old = Some o -> en_nonUnique o = false /\ NoDup (map (fun x => v_value (snd x)) (en_values o))) ->
  NoDup (map (fun x => v_value (snd x)) (en_values s)).
Proof.
  intros e c p n old s He Ho H N Hu. apply enum_start_inv in Ho.
  destruct (enum_parse_facts _ _ _ _ _ _ He Ho H) as (_ & _ & _ & U & _). apply (U N).
  destruct old as [o|]; simpl; [apply (Hu o eq_refl)|constructor].
Qed.
Print Assumptions C15_values_unique_partial.
Example C15_ex : exists s, ex_enum [("type", "uint8")]%string [ex_val "A" "1"; ex_val "B" "0xff"] None = Ok s /\
  enum_reachable s /\ en_nonUnique s = false /\ map (fun x => v_value (snd x)) (en_values s) = [1; 255] /\
  ex_enum [("type", "uint8")]%string [ex_val "A" "1"; ex_val "B" "A"] None = Err /\
  ex_enum [("type", "uint8")]%string [ex_val "A" "1"; ex_val "A" "2"] None = Err /\
  ex_enum [("type", "uint8")]%string [ex_val "A" "256"] None = Err /\
  ex_enum [("type", "uint8")]%string [] None = Err.
Proof. by_eval E. split; [exact (ex_enum_reach _ _ _ _ E)|]. vm_compute. repeat split. Qed.
(** nonUniqueAllowed turned off again by the reusing element *)
Theorem C15_values_unique_refuted : exists s, enum_reachable s /\ en_nonUnique s = false /\
  ~ NoDup (map (fun x => v_value (snd x)) (en_values s)).
Proof.
  assert (H : exists o, ex_enum [("type", "uint8"); ("nonUniqueAllowed", "true")]%string [ex_val "A" "1"; ex_val "B" "1"] None = Ok o /\
    exists s, ex_enum [("nonUniqueAllowed", "false")]%string [] (Some o) = Ok s /\ en_nonUnique s = false /\
      map (fun x => v_value (snd x)) (en_values s) = [1; 1]).
  { by_eval E. by_eval E2. vm_compute. auto. }
  destruct H as (o & Ho & s & Hs & N & V). exists s. split; [|split; [exact N|]].
  - eapply ex_enum_reach2; [eapply ex_enum_reach; exact Ho|exact Hs].
  - rewrite V. intros X. inversion X as [|? ? Y]. apply Y. left. reflexivity.
Qed.
Print Assumptions C15_values_unique_refuted.

(** ** C08, C10, C14 for enums *)
Theorem C08_enum_limits : forall s, enum_reachable s ->
  forall v, (reported_range (en_type s) (en_min s) (en_max s) v <->
             wire_values (en_type s) (en_length s) (en_bitLength s) v) /\
            (reported_range (en_type s) (en_typeMin s) (en_typeMax s) v <-> type_values (en_type s) v).
Proof.
  intros s H v. apply enum_reachable_inv in H. split.
  - apply (limits_spec _ _ _ _ _ (einv_bits _ H) (einv_min _ H) (einv_max _ H)).
  - rewrite (einv_tmin _ H), (einv_tmax _ H). apply type_limits_spec.
Qed.
Print Assumptions C08_enum_limits.
Theorem C10_enum_default_fits_type : forall s, enum_reachable s ->
  exists v, stands_for (en_type s) (en_default s) v /\ type_values (en_type s) v.
Proof.
  intros s H. apply enum_reachable_inv in H. destruct (einv_default _ H) as [D1 D2].
  apply in_limits_spec in D2; auto.
Qed.
Print Assumptions C10_enum_default_fits_type.
Theorem C10_enum_default_text : forall e c p n old s, env_num_ok e -> enum_start_ok old ->
  enum_parse e c p n old = Ok s ->
  (forall txt, find_prop p (L "defaultValue") = Some txt -> txt <> [] ->
     value_text (en_type s) (e_num e) (numbers (en_values s)) txt (en_default s)) /\
  (find_prop p (L "defaultValue") = None ->
     en_default s = match old with Some o => en_default o | None => 0 end).
Proof.
  intros e c p n old s He Ho H. apply enum_start_inv in Ho.
  destruct (enum_parse_facts _ _ _ _ _ _ He Ho H) as (_ & _ & _ & _ & D). unfold get_prop in D. split.
  - intros txt E Hn. rewrite E in D. destruct txt; [contradiction|exact D].
  - intros E. rewrite E in D. exact D.
Qed.
Print Assumptions C10_enum_default_text.
Theorem C14_enum_lengths : forall s, enum_reachable s ->
  1 <= en_length s <= type_bytes (en_type s) /\ 0 <= en_bitLength s <= 8 * en_length s /\
  (variable_type (en_type s) -> en_bitLength s = 8 * en_length s).
Proof.
  intros s H. apply enum_reachable_inv in H. destruct (einv_bits _ H) as (B1 & B2 & B3).
  assert (max_type_length (en_type s) = type_bytes (en_type s)) by (destruct (en_type s); reflexivity).
  split; [lia|]. split; [lia|]. intros V. apply B3. unfold variable_type in V.
  destruct (en_type s); simpl in *; intuition congruence.
Qed.
Print Assumptions C14_enum_lengths.
Theorem C14_enum_reuse_keeps_type_and_length : forall e c p n o s, env_num_ok e -> enum_reachable o ->
  enum_parse e c p n (Some o) = Ok s -> en_type s = en_type o /\ en_length s = en_length o.
Proof.
  intros e c p n o s He Ho H. apply enum_reachable_inv in Ho.
  destruct (enum_parse_facts _ _ _ _ _ _ He (Ho : eopt_inv (Some o)) H) as (_ & X & _). auto.
Qed.
Print Assumptions C14_enum_reuse_keeps_type_and_length.
Example C10_enum_ex : exists s, ex_enum_in true [("type", "int16"); ("defaultValue", "B"); ("bitLength", "5")]%string
    [ex_val "A" "1"; ex_val "B" "-3"] None = Ok s /\
  enum_reachable s /\ en_default s = -3 /\ en_min s = -16 /\ en_max s = 15 /\ en_length s = 2 /\ en_bitLength s = 5 /\
  ex_enum [("type", "uint16")]%string [] (Some s) = Err.
Proof. by_eval E. split; [exact (ex_enum_reach _ _ _ _ E)|]. vm_compute. repeat split. Qed.

(** ** C16 *)
Theorem C16_bit_names_unique : forall s, set_reachable s ->
  NoDup (map fst (s_bits s)) /\ Forall (fun x => identifier (fst x)) (s_bits s).
Proof.
  intros s H. apply set_reachable_inv in H. split; [apply (sinv_names _ H)|].
  eapply Forall_impl; [|apply (sinv_ok _ H)]. intros x (X & _). apply parseIsValidName_spec. exact X.
Qed.
Print Assumptions C16_bit_names_unique.
Theorem C16_indices_unique : forall s, set_reachable s -> s_nonUnique s = false ->
  NoDup (map (fun x => b_idx (snd x)) (s_bits s)).
Proof. intros s H. apply set_reachable_inv in H. apply (sinv_unique _ H). Qed.
Print Assumptions C16_indices_unique.
Theorem C16_shared_bits_agree : forall s, set_reachable s ->
  forall i j a b, nth_error (s_bits s) i = Some a -> nth_error (s_bits s) j = Some b -> i <> j ->
  b_idx (snd a) = b_idx (snd b) -> overlap (snd a) (snd b) ->
  b_default (snd a) = b_default (snd b) /\ b_reserved (snd a) = b_reserved (snd b) /\
  b_reservedValue (snd a) = b_reservedValue (snd b).
Proof.
  intros s H i j a b Hi Hj Hij. apply set_reachable_inv in H. pose proof (sinv_agree _ H) as A.
  apply (FOP_nth (fun x y => agree (snd x) (snd y))) with (i := i) (j := j) (a := a) (b := b) in A; auto.
  intros x y. apply agree_sym.
Qed.
Print Assumptions C16_shared_bits_agree.
(** the bits are those of the reused set followed by one per <bit> element *)
Theorem C16_bits_as_written : forall e c p n old s, set_start_ok old -> c_deprecated c <= never ->
  set_parse e c p n old = Ok s ->
  exists new, s_bits s = match old with Some o => s_bits o | None => [] end ++ new /\
    Forall2 (bit_element e (s_defaultBit s) (s_reservedBit s) (s_bitLength s) (c_since c) (c_deprecated c))
       (parseGetChildrenNamed n (L "bit")) new.
Proof.
  intros e c p n old s Ho Hd H.
  assert (Ho' : sopt_inv old) by (destruct old; simpl in *; [apply set_reachable_inv|]; auto).
  destruct (set_parse_facts _ _ _ _ _ _ Ho' H) as (_ & _ & (new & X1 & _ & X2 & _)). exists new. auto.
Qed.
Print Assumptions C16_bits_as_written.
(** missing: sets in a bitfield that reuse another set *)
Theorem C16_indices_in_range_partial : forall e c p n old s, set_start_ok old ->
  set_parse e c p n old = Ok s ->
  (forall o, old = Some o -> s_bitLength o <= s_bitLength s /\
     Forall (fun x => 0 <= b_idx (snd x) < s_bitLength o) (s_bits o)) ->
  Forall (fun x => 0 <= b_idx (snd x) < s_bitLength s) (s_bits s).
Proof.
  intros e c p n old s Ho H Hb.
  assert (Ho' : sopt_inv old) by (destruct old; simpl in *; [apply set_reachable_inv|]; auto).
  destruct (set_parse_facts _ _ _ _ _ _ Ho' H) as (Inv & _ & (new & X1 & X2 & _)).
  pose proof (sinv_ok _ Inv) as K. rewrite X1 in *. apply Forall_app in K as [K1 K2]. apply Forall_app. split.
  - destruct old as [o|]; simpl in *; [|constructor]. destruct (Hb o eq_refl) as [B1 B2].
    eapply Forall_impl; [|exact B2]. simpl. intros x X. lia.
  - rewrite Forall_forall in *. intros x Hx. destruct (K2 x Hx) as (_ & K & _). specialize (X2 x Hx). simpl in X2. lia.
Qed.
Print Assumptions C16_indices_in_range_partial.
(** reuse outside of a bitfield keeps the indices in range: the bit length is the same *)
Theorem C16_indices_in_range_refuted : exists s x, set_reachable s /\ In x (s_bits s) /\ s_bitLength s <= b_idx (snd x).
Proof.
  assert (H : exists o, ex_set [("length", "2")]%string [ex_bit "A" "15"] None = Ok o /\
    exists s, ex_set_in true [("bitLength", "12")]%string [] (Some o) = Ok s /\ s_bitLength s = 12 /\
      map (fun x => b_idx (snd x)) (s_bits s) = [15]).
  { by_eval E. by_eval E2. vm_compute. auto. }
  destruct H as (o & Ho & s & Hs & N & V). destruct (s_bits s) as [|x l] eqn:B; [discriminate|].
  injection V as V _. exists s, x. split; [|split; [rewrite B; left; reflexivity|rewrite N, V; discriminate]].
  eapply ex_set_reach2; [eapply ex_set_reach; exact Ho|exact Hs].
Qed.
Print Assumptions C16_indices_in_range_refuted.
Example C16_ex : exists s, ex_set [("length", "1")]%string [ex_bit "A" "7"; ex_bit "B" "0"] None = Ok s /\
  set_reachable s /\ s_nonUnique s = false /\ map (fun x => b_idx (snd x)) (s_bits s) = [7; 0] /\
  ex_set [("length", "1")]%string [ex_bit "A" "8"] None = Err /\
  ex_set [("length", "1")]%string [ex_bit "A" "1"; ex_bit "B" "1"] None = Err /\
  ex_set [("length", "1")]%string [ex_bit "A" "1"; ex_bit "A" "2"] None = Err.
Proof. by_eval E. split; [exact (ex_set_reach _ _ _ _ E)|]. vm_compute. repeat split. Qed.
Example C16_ex_shared : exists s, ex_set [("length", "1"); ("nonUniqueAllowed", "true")]%string
    [ex_child "bit" [("name", "A"); ("idx", "1"); ("defaultValue", "true")]%string;
     ex_child "bit" [("name", "B"); ("idx", "1"); ("defaultValue", "1")]%string] None = Ok s /\
  set_reachable s /\
  (exists a b, nth_error (s_bits s) 0 = Some a /\ nth_error (s_bits s) 1 = Some b /\
      b_idx (snd a) = b_idx (snd b) /\ overlap (snd a) (snd b)) /\
  ex_set [("length", "1"); ("nonUniqueAllowed", "true")]%string
    [ex_child "bit" [("name", "A"); ("idx", "1"); ("defaultValue", "true")]%string;
     ex_child "bit" [("name", "B"); ("idx", "1"); ("defaultValue", "0")]%string] None = Err.
Proof.
  by_eval E. split; [exact (ex_set_reach _ _ _ _ E)|]. split; [|vm_compute; reflexivity].
  eexists _, _. split; [reflexivity|]. split; [reflexivity|]. split; [reflexivity|].
  exists 0. cbn. unfold not_deprecated. cbn. lia.
Qed.

(** ** C17 *)
Theorem C17_set_lengths : forall s, set_reachable s ->
  exists t, s_type s = Some t /\ unsigned_type t /\ 1 <= s_length s <= type_bytes t /\
            1 <= s_bitLength s <= 8 * s_length s.
Proof.
  intros s H. apply set_reachable_inv in H. destruct (sinv_type _ H) as (t & E & U & R).
  exists t. split; [exact E|]. split; [apply unsigned_iff; exact U|].
  assert (max_type_length t = type_bytes t) by (destruct t; reflexivity).
  pose proof (sinv_bits _ H). lia.
Qed.
Print Assumptions C17_set_lengths.
Theorem C17_set_reuse_keeps_type_and_length : forall e c p n o s, set_reachable o ->
  set_parse e c p n (Some o) = Ok s -> s_type s = s_type o /\ s_length s = s_length o.
Proof.
  intros e c p n o s Ho H. apply set_reachable_inv in Ho.
  destruct (set_parse_facts _ _ _ _ _ _ (Ho : sopt_inv (Some o)) H) as (_ & X & _). auto.
Qed.
Print Assumptions C17_set_reuse_keeps_type_and_length.
(** a set without a type gets the narrowest fixed length type that is wide enough *)
Theorem C17_derived_type_is_smallest : forall e c p n s t, set_parse e c p n None = Ok s ->
  find_prop p (L "type") = None -> s_type s = Some t ->
  forall t', unsigned_type t' -> s_length s <= type_bytes t' -> type_bytes t <= type_bytes t'.
Proof.
  intros e c p n s t H Ht Et t' Hu Hl. unfold set_parse in H.
  apply bind_Ok in H as (en & _ & H). apply bind_Ok in H as (t0 & Ht0 & H).
  apply bind_Ok in H as ([[t1 len] bits] & Hlen & H). apply bind_Ok in H as (nonU & Hnon & H).
  apply bind_Ok in H as (vcv & _ & H). apply bind_Ok in H as (dv & _ & H). apply bind_Ok in H as (rv & _ & H).
  apply bind_Ok in H as (al & _ & H). apply bind_Ok in H as (bs & Hbs & H). injection H as <-.
  cbn [s_type s_length] in *. injection Et as ->.
  unfold set_update_type in Ht0. apply bind_Ok in Ht0 as ([] & _ & Ht0). rewrite Ht in Ht0. injection Ht0 as <-.
  unfold set_update_length in Hlen. cbv zeta in Hlen. apply bind_Ok in Hlen as ([] & _ & Hlen).
  apply bind_Ok in Hlen as (l0 & _ & Hlen). apply bind_Ok in Hlen as ([] & _ & Hlen).
  apply bind_Ok in Hlen as (b0 & _ & Hlen). apply bind_Ok in Hlen as (tm & Htm & Hlen). injection Hlen as E1 E2 E3. subst tm len.
  apply set_type_map_spec in Htm as (_ & _ & M). apply unsigned_iff in Hu. specialize (M t' Hu).
  assert (B : forall x, type_bytes x = max_type_length x) by (intros []; reflexivity).
  rewrite !B in *. auto.
Qed.
Print Assumptions C17_derived_type_is_smallest.
(** Lengths are those written: the length in bytes, else that of the type, else the least
    number of bytes the bits fit into; the number of bits, for members of bitfields only *)
Definition unsigned_text (t : txt) (v : Z) : Prop := exists w, denotes t w /\ Z.abs w < 2 ^ 64 /\ v = w mod 2 ^ 64.
Theorem C17_lengths_as_written : forall e c p n s, set_parse e c p n None = Ok s ->
  (forall t, find_prop p (L "length") = Some t -> t <> [] -> unsigned_text t (s_length s)) /\
  (find_prop p (L "length") = None -> forall t, find_prop p (L "type") <> None -> s_type s = Some t -> s_length s = type_bytes t) /\
  (find_prop p (L "length") = None -> find_prop p (L "type") = None -> c_inBitfield c = true /\ 8 * (s_length s - 1) < s_bitLength s <= 8 * s_length s) /\
  (c_inBitfield c = false -> s_bitLength s = 8 * s_length s) /\
  (c_inBitfield c = true -> forall t, find_prop p (L "bitLength") = Some t -> t <> [] -> unsigned_text t (s_bitLength s)).
Proof.
  intros e c p n s H. assert (R : set_reachable s) by (eapply sr_fresh; exact H). destruct (C17_set_lengths _ R) as (t9 & Et & _ & L9 & B9).
  assert (TB : forall x, type_bytes x = max_type_length x) by (intros []; reflexivity).
  unfold set_parse in H.
  apply bind_Ok in H as (en & _ & H). apply bind_Ok in H as (t0 & Ht0 & H).
  apply bind_Ok in H as ([[t1 len] bits] & Hlen & H). apply bind_Ok in H as (nonU & Hnon & H).
  apply bind_Ok in H as (vcv & _ & H). apply bind_Ok in H as (dv & _ & H). apply bind_Ok in H as (rv & _ & H).
  apply bind_Ok in H as (al & _ & H). apply bind_Ok in H as (bs & Hbs & H). injection H as <-.
  cbn [s_type s_length s_bitLength] in *. injection Et as <-.
  assert (Hty : match t0 with None => find_prop p (L "type") = None | Some _ => find_prop p (L "type") <> None end).
  { unfold set_update_type in Ht0. apply bind_Ok in Ht0 as ([] & _ & Ht0). destruct (find_prop p (L "type")) as [x|] eqn:E; [|injection Ht0 as <-; reflexivity].
    apply bind_Ok in Ht0 as (t' & _ & Ht0). apply bind_Ok in Ht0 as ([] & _ & Ht0). injection Ht0 as <-. discriminate. }
  unfold set_update_length in Hlen. cbv zeta in Hlen. apply bind_Ok in Hlen as ([] & Hml & Hlen).
  apply bind_Ok in Hlen as (l0 & Hl0 & Hlen). apply bind_Ok in Hlen as ([] & Hmb & Hlen).
  apply bind_Ok in Hlen as (b0 & Hb0 & Hlen). apply bind_Ok in Hlen as (tm & Htm & Hlen). injection Hlen as E1 E2 E3. subst tm b0.
  unfold get_prop in *. change (0 =? 0) with true in *. cbn [andb negb] in *.
  assert (M8 : forall x, max_type_length x <= 10) by (intros []; cbn; lia).
  assert (L0 : (exists t, find_prop p (L "length") = Some t /\ t <> [] /\ unsigned_text t l0 /\ 1 <= l0 <= 10) \/
               (find_prop p (L "length") = None \/ find_prop p (L "length") = Some []) /\ l0 = match t0 with Some x => max_type_length x | None => 0 end).
  { destruct (find_prop p (L "length")) as [[|ch x]|] eqn:E; cbn [is_nil] in Hl0.
    - right. split; [auto|]. destruct t0; injection Hl0 as <-; reflexivity.
    - left. exists (ch :: x). split; [reflexivity|]. split; [discriminate|]. apply bind_Ok in Hl0 as (m & Hm & Hl0). apply of_opt_Ok in Hm.
      pose proof (stoull_nn _ _ Hm) as Nn. apply stoull_spec in Hm. destruct ((m =? 0) || (_ <? m)) eqn:G; [discriminate|]. apply orb_false_iff in G as [G1 G2].
      apply Z.eqb_neq in G1. apply Z.ltb_ge in G2. assert (E0 : (0 =? m) = false) by (apply Z.eqb_neq; lia). rewrite E0 in Hl0. injection Hl0 as <-. split; [exact Hm|].
      destruct t0 as [t0|]; [specialize (M8 t0)|]; lia.
    - right. split; [auto|]. destruct t0; injection Hl0 as <-; reflexivity. }
  assert (U8 : forall z, 0 <= z <= 10 -> to_u64 (z * 8) = 8 * z) by (intros z Hz; unfold to_u64, two64; rewrite Z.mod_small by lia; lia).
  assert (Pt : forall x, 1 <= max_type_length x) by (intros []; cbn; lia).
  assert (L0r : 0 <= l0 <= 10) by (destruct L0 as [(x & _ & _ & _ & ?)|[_ ->]]; [lia|destruct t0 as [t0|]; [specialize (M8 t0); specialize (Pt t0)|]; lia]).
  rewrite U8 in Hb0 by exact L0r.
  assert (B0 : (c_inBitfield c = false -> bits = 8 * l0) /\
    (c_inBitfield c = true -> match find_prop p (L "bitLength") with Some (ch :: x) => unsigned_text (ch :: x) bits /\ 1 <= bits | _ => bits = 8 * l0 end)).
  { destruct (find_prop p (L "bitLength")) as [[|ch x]|]; cbn [is_nil] in Hb0; try (injection Hb0 as <-; auto).
    destruct (c_inBitfield c); cbn [negb] in Hb0; [|injection Hb0 as <-; split; [auto|discriminate]]. split; [discriminate|]. intros _.
    apply bind_Ok in Hb0 as (b & Hb & Hb0). apply of_opt_Ok in Hb. pose proof (stoull_nn _ _ Hb). apply stoull_spec in Hb. destruct (Z.eqb_spec b 0); [discriminate|].
    destruct (negb (l0 =? 0) && _); [discriminate|]. injection Hb0 as <-. split; [exact Hb|lia]. }
  destruct B0 as [B1 B2].
  assert (El : l0 <> 0 -> len = l0) by (intros N; rewrite <- E2; destruct (Z.eqb_spec l0 0); [contradiction|reflexivity]).
  assert (Ez : l0 = 0 -> bits <> 0 /\ len = (bits - 1) / 8 + 1).
  { intros ->. cbn [andb] in E2. change (0 =? 0) with true in E2. destruct (Z.eqb_spec bits 0) as [->|Nb]; cbn [andb negb] in E2; [lia|]. split; [exact Nb|auto]. }
  split; [|split; [|split; [|split]]].
  - intros t E N. destruct L0 as [(x & Ex & _ & U & Lx)|[[X|X] _]]; [|congruence|congruence]. rewrite E in Ex. injection Ex as <-. rewrite El by lia. exact U.
  - intros E t Nt Et. destruct t0 as [t0|]; [|contradiction]. injection Htm as <-. injection Et as <-. destruct L0 as [(x & Ex & _)|[_ ->]]; [congruence|].
    rewrite El by (specialize (Pt t0); lia). symmetry. apply TB.
  - intros E Nt. destruct t0 as [t0|]; [contradiction|]. destruct L0 as [(x & Ex & _)|[_ ->]]; [congruence|]. destruct (Ez eq_refl) as [Nb ->].
    split.
    + destruct (c_inBitfield c) eqn:Ib; [reflexivity|]. rewrite (B1 eq_refl) in Nb. lia.
    + pose proof (Z.div_mod (bits - 1) 8 ltac:(lia)). pose proof (Z.mod_pos_bound (bits - 1) 8 ltac:(lia)). lia.
  - intros Ib. rewrite (B1 Ib) in *. destruct (Z.eq_dec l0 0) as [->|N]; [destruct (Ez eq_refl); lia|]. rewrite (El N). reflexivity.
  - intros Ib t E N. specialize (B2 Ib). rewrite E in B2. destruct t; [contradiction|]. apply B2.
Qed.
Print Assumptions C17_lengths_as_written.
Example C17_ex : exists s, ex_set_in true [("bitLength", "11")]%string [ex_bit "A" "10"] None = Ok s /\
  set_reachable s /\ s_type s = Some Uint16 /\ s_length s = 2 /\ s_bitLength s = 11 /\
  ex_set [("length", "9")]%string [] None = Err /\ ex_set [("length", "0")]%string [] None = Err /\
  ex_set [("type", "int8")]%string [] None = Err.
Proof. by_eval E. split; [exact (ex_set_reach _ _ _ _ E)|]. vm_compute. repeat split. Qed.
(** an empty length, or more than 64 bits in a bitfield, index the type table out of bounds *)
Theorem C17_type_table_refuted :
  ex_set [("length", "")]%string [] None = UB /\ ex_set_in true [("bitLength", "65")]%string [] None = UB.
Proof. vm_compute. auto. Qed.
Print Assumptions C17_type_table_refuted.

(** ** C06: the first of two default values of a set is used *)
Theorem C06_set_default_twice_refuted : exists s,
  ex_set [("length", "1"); ("defaultValue", "true")]%string
    [ex_bit "A" "0"] None = Ok s /\
  (exists s', set_parse ex_env (ex_common 0 false)
      [(L "length", L "1"); (L "defaultValue", L "true"); (L "defaultValue", L "false")]
      (Elem (L "set") [] [ex_bit "A" "0"]) None = Ok s' /\ s_defaultBit s' = s_defaultBit s).
Proof. by_eval E. by_eval E2. reflexivity. Qed.
Print Assumptions C06_set_default_twice_refuted.
