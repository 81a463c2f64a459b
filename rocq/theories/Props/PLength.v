(** C18, C19, C20: bitfields and reported lengths. *)
From Verif.Model Require Import Base Common Xml Units Field FieldCommon Composite.
From Verif.Spec Require Import Texts Ints Versions IntSpec XmlSpec FieldSpec LengthSpec Ex.
From Verif.Proofs Require Import BaseFacts CommonFacts FieldInv FieldFacts LengthFacts BitfieldFacts FuelFacts ExFacts.
From Verif.Props Require Import PInt.
Local Open Scope string_scope. Local Open Scope Z_scope. Local Open Scope list_scope.

(** ** C19 *)
Theorem C19_min_not_above_max : forall f g m, accepted f -> part_of g f -> max_length g = Ok m ->
  0 <= min_length g <= m /\ m < 2 ^ 64.
Proof.
  intros f g m H P E. pose proof (part_total _ _ H P) as A.
  assert (B : all base_ok g) by (eapply all_impl; [|exact A]; unfold total_ok; tauto).
  destruct (lengths_ok _ B) as [U L]. apply L in E as [V E]. unfold u64 in *. change two64 with (2 ^ 64) in *. lia.
Qed.
Print Assumptions C19_min_not_above_max.

(** ** C20 *)
(** the upper bound: the reported maximum is above every possible length, or is the
    "unlimited" value 2^64 - 1.
    Missing: bitfields whose total width does not fit std::size_t (refuted below) *)
Theorem C20_not_above_max_partial : forall f g n m, accepted f -> part_of g f -> sane_bitfields g -> takes g n ->
  max_length g = Ok m -> 0 <= n <= m \/ m = 2 ^ 64 - 1.
Proof.
  intros f g n m H P S T E. destruct (takes_bounds False g (part_total _ _ H P) (fun x => match x with end) S n T) as [N [_ W]].
  destruct (W _ E) as [X | ->]; [left; lia|right; reflexivity].
Qed.
Print Assumptions C20_not_above_max_partial.
(** the lower bound. Missing: pseudo fields and fields limited to the available length (refuted below) *)
Theorem C20_not_below_min_partial : forall f g n, accepted f -> part_of g f -> plain g -> sane_bitfields g -> takes g n ->
  min_length g <= n.
Proof.
  intros f g n H P L S T. destruct (takes_bounds True g (part_total _ _ H P) (fun _ => L) S n T) as [_ [W _]]. apply W. exact I.
Qed.
Print Assumptions C20_not_below_min_partial.


(** deciding the hypotheses of the examples *)
Definition plainb (g : field) : bool := negb (c_pseudo (f_common g)) &&
  match g with FInt _ s => negb (i_availableLengthLimit s) | FEnum _ s => negb (en_availableLengthLimit s)
  | FSet _ s => negb (s_availableLengthLimit s) | _ => true end.
Lemma plainb_spec f : every plainb f = true -> plain f.
Proof.
  intros H g P. pose proof (every_spec _ _ _ H P) as E. apply andb_true_iff in E as [E1 E2]. apply negb_true_iff in E1.
  split; [exact E1|]. intros A. destruct g; try contradiction; cbn in A; rewrite A in E2; discriminate.
Qed.
Definition saneb (g : field) : bool := match g with FBitfield _ _ ms _ => total (map bits_of ms) <? 2 ^ 64 | _ => true end.
Lemma saneb_spec f : every saneb f = true -> sane_bitfields f.
Proof. intros H c e ms v P. pose proof (every_spec _ _ _ H P) as E. apply Z.ltb_lt in E. exact E. Qed.

Lemma takes_int c s n : i_length s = n -> is_var (i_type s) = false -> takes (FInt c s) n.
Proof. intros <- V. apply tk_int. rewrite <- is_var_spec. congruence. Qed.
(** <bundle name="b"><int name="a" type="uint16"/><list name="l"><element><int name="e" type="uintvar" length="3"/></element>
    <countPrefix><int name="c" type="uint8"/></countPrefix></list></bundle> with two list elements of 1 and 3 bytes *)
Definition ex_bundle : node :=
  el "bundle" [("name", "b")]
    [el "int" [("name", "a"); ("type", "uint16")] [];
     el "list" [("name", "l")] [el "element" [] [el "int" [("name", "e"); ("type", "uintvar"); ("length", "3")] []];
                                el "countPrefix" [] [el "int" [("name", "c"); ("type", "uint8")] []]]].
Example C20_ex : exists f, ex_global [] ex_bundle = Ok f /\ accepted f /\ min_length f = 3 /\ max_length f = Ok 768 /\
  plain f /\ sane_bitfields f /\ takes f 7.
Proof.
  by_eval E. split; [apply (ex_accepted [] global_ctx ex_bundle); [constructor|exact E]|]. clear E.
  split; [vm_compute; reflexivity|]. split; [vm_compute; reflexivity|].
  split; [apply plainb_spec; vm_compute; reflexivity|]. split; [apply saneb_spec; vm_compute; reflexivity|].
  apply (tk_bundle _ _ _ _ [2; 5]). constructor; [|constructor; [|constructor]].
  - apply takes_int; reflexivity.
  - apply (tk_list_countPrefix _ _ _ _ _ _ _ _ 1 2 4); [reflexivity| | |].
    + apply takes_int; reflexivity.
    + split; [lia|]. exists 255. split; [reflexivity|lia].
    + apply (et_plain _ _ _ [1; 3]); [reflexivity|].
      apply Forall_cons; [|apply Forall_cons; [|apply Forall_nil]]; (apply tk_intvar; [apply is_var_spec; reflexivity|cbn; lia]).
Qed.
(** a pseudo field is not written at all, but counted in the minimal length *)
Theorem C20_pseudo_refuted : exists f, accepted f /\ takes f 0 /\ min_length f = 4.
Proof.
  exists (got_field (ex_global [] (el "int" [("name", "a"); ("type", "uint32"); ("pseudo", "true")] []))).
  split; [ex_acc|]. split; [apply tk_pseudo; vm_compute; reflexivity|vm_compute; reflexivity].
Qed.
Print Assumptions C20_pseudo_refuted.
(** a field limited to the available length may be written shorter than its minimal length *)
Theorem C20_available_refuted : exists f, accepted f /\ takes f 1 /\ min_length f = 4.
Proof.
  exists (got_field (ex_global [] (el "int" [("name", "a"); ("type", "uint32"); ("availableLengthLimit", "true")] []))).
  split; [ex_acc|]. split; [|vm_compute; reflexivity].
  apply (tk_available _ 4); [vm_compute; reflexivity| |lia]. vm_compute. apply takes_int; reflexivity.
Qed.
Print Assumptions C20_available_refuted.

(** ** C18 *)
(** Missing: replaced members are not counted again, and widths that add up to 2^64 or more (both refuted below) *)
Theorem C18_fills_bytes_partial : forall e x n c en ms vc, env_num_ok e ->
  (forall s g, e_find e s = Some g -> accepted g /\ fills_bytes g) ->
  parse_field e x n = Ok (FBitfield c en ms vc) ->
  (forall m, In m (n_children n) -> n_name m <> T "replace") ->
  total (map bits_of ms) < 2 ^ 64 ->
  exists k, total (map bits_of ms) = 8 * k /\ 0 <= k <= 8 /\
    min_length (FBitfield c en ms vc) = k /\ max_length (FBitfield c en ms vc) = Ok k /\ NoDup (map f_name ms).
Proof.
  intros e x n c en ms vc He Hf H Hn Hs.
  assert (Ha : forall s g, e_find e s = Some g -> accepted g) by (intros s g E; apply (Hf s g E)).
  assert (A : accepted (FBitfield c en ms vc)) by (eapply acc; eassumption).
  assert (F : fills_bytes (FBitfield c en ms vc)) by (eapply bitfield_fills; [exact H|exact He|exact Ha|exact Hn|]; intros s g E; apply (Hf s g E)).
  destruct (F _ _ _ _ eq_refl Hs) as [M L]. pose proof (accepted_total _ A) as T.
  assert (B : map bit_length ms = map bits_of ms) by (apply bits_eq; apply all_here in T; apply T).
  assert (N : Forall (fun z => 0 <= z) (map bit_length ms)).
  { apply bits_nonneg. intros g Hg. eapply all_parts in T; [|exact Hg]. eapply all_impl; [|exact T]. unfold total_ok. tauto. }
  assert (E : min_length (FBitfield c en ms vc) = total (map bits_of ms) / 8).
  { cbn [min_length]. rewrite (sum_u64_spec _ N), B. rewrite B in N. pose proof (total_nonneg _ N). change two64 with (2 ^ 64). rewrite Z.mod_small by lia. reflexivity. }
  rewrite B in N. pose proof (total_nonneg _ N). exists (total (map bits_of ms) / 8).
  split; [lia|]. split; [lia|]. split; [exact E|]. split; [cbn [max_length]; rewrite E; reflexivity|].
  exact (all_here _ _ (accepted_distinct _ A)).
Qed.
Print Assumptions C18_fills_bytes_partial.
Definition ex_bf : node := el "bitfield" [("name", "B")]
  [el "int" [("name", "a"); ("type", "uint8"); ("bitLength", "3")] []; el "set" [("name", "s"); ("bitLength", "5")] [];
   el "int" [("name", "c"); ("type", "int16"); ("bitLength", "8")] []].
Definition ex_B := got_field (ex_global [] ex_bf).
Example C18_ex : accepted ex_B /\ fills_bytes ex_B /\ min_length ex_B = 2 /\
  exists c en ms vc, ex_global [("B", ex_B)] (el "bitfield" [("name", "C"); ("reuse", "B")] []) = Ok (FBitfield c en ms vc) /\
    total (map bits_of ms) = 16 /\
  ex_global [] (el "bitfield" [("name", "B")] [el "int" [("name", "a"); ("type", "uint8"); ("bitLength", "3")] []]) = Err /\
  ex_global [] (el "bitfield" [("name", "B")] [el "int" [("name", "a"); ("type", "uint64")] []; el "int" [("name", "b"); ("type", "uint8")] []]) = Err.
Proof.
  split; [unfold ex_B; ex_acc|]. split.
  { intros c en ms v E. assert (X : f_members ex_B = ms) by (rewrite E; reflexivity). rewrite <- X. intros _. vm_compute. split; [reflexivity|discriminate]. }
  split; [vm_compute; reflexivity|]. eexists _, _, _, _. split; [vm_compute; reflexivity|]. vm_compute. auto.
Qed.
(** the width is not checked again after members were replaced: 21 bits, reported as 2 bytes *)
Theorem C18_replace_refuted : exists c en ms vc, accepted (FBitfield c en ms vc) /\
  total (map bits_of ms) = 21 /\ min_length (FBitfield c en ms vc) = 2.
Proof.
  destruct (ex_global [("B", ex_B)] (el "bitfield" [("name", "C"); ("reuse", "B")]
    [el "replace" [] [el "int" [("name", "a"); ("type", "uint8")] []]])) as [f| |] eqn:E; try (vm_compute in E; discriminate).
  assert (A : accepted f) by (eapply (ex_accepted [("B", ex_B)]); [|exact E]; constructor; [unfold ex_B; ex_acc|constructor]).
  vm_compute in E. injection E as E. subst f. eexists _, _, _, _. split; [exact A|]. vm_compute. auto.
Qed.
Print Assumptions C18_replace_refuted.
(** a <ref> to a field of unlimited length counts as 2^64 - 8 bits: with 8 more the sum wraps to 0,
    which is accepted, and the reported length is 0 *)
Theorem C18_ref_refuted : exists c en ms vc, accepted (FBitfield c en ms vc) /\
  total (map bits_of ms) = 2 ^ 64 /\ min_length (FBitfield c en ms vc) = 0 /\ max_length (FBitfield c en ms vc) = Ok 0.
Proof.
  pose (s := got_field (ex_global [] (el "string" [("name", "S")] []))).
  destruct (ex_global [("S", s)] (el "bitfield" [("name", "C")]
    [el "ref" [("name", "a"); ("field", "S")] []; el "int" [("name", "b"); ("type", "uint8")] []])) as [f| |] eqn:E; try (vm_compute in E; discriminate).
  assert (A : accepted f) by (eapply (ex_accepted [("S", s)]); [|exact E]; constructor; [unfold s; ex_acc|constructor]).
  vm_compute in E. injection E as E. subst f. eexists _, _, _, _. split; [exact A|]. vm_compute. auto.
Qed.
Print Assumptions C18_ref_refuted.
(** ... so its values are longer than the reported maximum *)
Theorem C20_wrapped_bitfield_refuted : exists f n, accepted f /\ takes f n /\ max_length f = Ok 0 /\ 0 < n.
Proof.
  destruct C18_ref_refuted as (c & en & ms & vc & A & T & _ & M). exists (FBitfield c en ms vc), (2 ^ 61).
  split; [exact A|]. split; [|split; [exact M|lia]]. replace (2 ^ 61) with (total (map bits_of ms) / 8) by (rewrite T; reflexivity). apply tk_bitfield.
Qed.
Print Assumptions C20_wrapped_bitfield_refuted.
(** <members/> without any member is accepted: a field of no bits *)
Theorem C18_no_members_refuted : exists c en vc, accepted (FBitfield c en [] vc).
Proof.
  destruct (ex_global [] (el "bitfield" [("name", "C")] [el "members" [] []])) as [f| |] eqn:E; try (vm_compute in E; discriminate).
  assert (A : accepted f) by (eapply (ex_accepted []); [constructor|exact E]).
  vm_compute in E. injection E as E. subst f. eexists _, _, _. exact A.
Qed.
Print Assumptions C18_no_members_refuted.
