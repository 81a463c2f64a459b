(** Properties C08-C14: <int> fields. *)
From Verif.Model Require Import Base Common Xml Units Field FieldCommon IntField.
From Verif.Spec Require Import Texts Ints Versions IntSpec.
From Verif.Proofs Require Import BaseFacts CommonFacts IntFacts RangeFacts IntInv.
From Coq Require Import Sorting.Sorted.

(** ** a concrete element to evaluate: <int a="v" ...>children</int> *)
Definition ex_env : env :=
  mkEnv 10 0 Big (fun _ => None) (fun _ => None) (fun _ => None) (fun _ => None) (fun _ => None) (fun _ => None) (fun _ => None)
    (fun s => match parseStrToIntMax s with Some z => Some (binary_normalize 53 1024 z 0 false) | None => None end) (fun _ => Ok []).
Definition ex_attrs (l : list (string * string)) : list (str * str) := map (fun a => (L (fst a), L (snd a))) l.
Definition ex_common (since : Z) (inBf : bool) : common :=
  let c := init_common inBf in
  mkCommon (L "f") [] [] SemNone (c_ovr c) [] (-1) false false false false false since not_deprecated false inBf.
Definition ex_int_in (inBf : bool) (attrs : list (string * string)) (children : list node) (old : option int_state) : res int_state :=
  let n := Elem (L "int") (ex_attrs attrs) children in
  int_parse ex_env (ex_common 0 inBf) (parseNodeProps n) n old.
Definition ex_int := ex_int_in false.
Definition ex_child (name : string) (attrs : list (string * string)) : node := Elem (L name) (ex_attrs attrs) [].
Lemma ex_env_ok : env_num_ok ex_env.
Proof. intros s v b H. discriminate. Qed.
Definition dummy_int : int_state :=
  mkInt Int8 Little 0 0 0 0 0 0 0 0 (0, 0) [] [] [] 0 0 false false false false.
Definition got (r : res int_state) : int_state := match r with Ok s => s | _ => dummy_int end.
Lemma ex_reach b a ch s : ex_int_in b a ch None = Ok s -> int_reachable s.
Proof. intros H. eapply ir_fresh; [apply ex_env_ok|exact H]. Qed.

Definition is_ok {A} (r : res A) : bool := match r with Ok _ => true | _ => false end.
Lemma got_reach b a ch : is_ok (ex_int_in b a ch None) = true -> int_reachable (got (ex_int_in b a ch None)).
Proof. destruct (ex_int_in b a ch None) eqn:E; try discriminate. intros _. eapply ex_reach; exact E. Qed.
(** evaluate the example in a goal [exists s, r = Ok s /\ ...] *)
Ltac by_eval E :=
  match goal with |- exists s, ?r = Ok s /\ _ =>
    let v := eval vm_compute in r in
    match v with Ok ?x => exists x; assert (E : r = Ok x) by (vm_compute; reflexivity); split; [exact E|] end
  end.

(** ** C08 *)
Theorem C08_limits_are_serialisable_values : forall s, int_reachable s -> i_serOffset s = 0 ->
  forall v, reported_range (i_type s) (i_min s) (i_max s) v <->
            wire_values (i_type s) (i_length s) (i_bitLength s) v.
Proof.
  intros s H E v. apply int_reachable_inv in H. pose proof (inv_limits _ H) as L.
  rewrite (offset_spec _ _ _ _ _ _ _ _ (inv_bits _ H) (inv_so _ H) L (or_introl E)).
  rewrite E, Z.add_0_r. split; [tauto|]. intros W. split; [|exact W].
  destruct (inv_bits _ H) as (B1 & B2 & B3). unfold domain64, wire_values, signed_bits, unsigned_bits in *.
  assert (Hw : 0 <= wire_bits (i_type s) (i_length s) (i_bitLength s) <= 64).
  { unfold wire_bits. pose proof (max_len_pos (i_type s)). clear - B1 B2; destruct (i_type s); cbn [max_type_length] in *; lia. }
  destruct W as [W1 W2]. split; intros X; [specialize (W1 X)|specialize (W2 X)].
  - destruct (Z.eq_dec (wire_bits (i_type s) (i_length s) (i_bitLength s)) 0) as [E0|N0].
    + rewrite E0 in W1. simpl in W1. lia.
    + pose proof (Z.pow_le_mono_r 2 (wire_bits (i_type s) (i_length s) (i_bitLength s) - 1) (64 - 1)). lia.
  - pose proof (Z.pow_le_mono_r 2 (wire_bits (i_type s) (i_length s) (i_bitLength s)) 64). lia.
Qed.
Print Assumptions C08_limits_are_serialisable_values.
Theorem C08_type_limits : forall s, int_reachable s ->
  forall v, reported_range (i_type s) (i_typeMin s) (i_typeMax s) v <-> type_values (i_type s) v.
Proof.
  intros s H v. apply int_reachable_inv in H. pose proof (inv_limits _ H) as L.
  apply int_min_max_type in L as [-> ->]. apply type_limits_spec.
Qed.
Print Assumptions C08_type_limits.
(** a 5 bit signed member of a bitfield, a 3 byte variable length integer *)
Example C08_ex : exists s, ex_int_in true [("type", "int16"); ("bitLength", "5")]%string [] None = Ok s /\
  int_reachable s /\ i_serOffset s = 0 /\ i_min s = -16 /\ i_max s = 15.
Proof. by_eval E. split; [exact (ex_reach _ _ _ _ E)|]. vm_compute. auto. Qed.
Example C08_ex_var : exists s, ex_int [("type", "uintvar"); ("length", "3")]%string [] None = Ok s /\
  int_reachable s /\ i_serOffset s = 0 /\ i_min s = 0 /\ i_max s = 2097151.
Proof. by_eval E. split; [exact (ex_reach _ _ _ _ E)|]. vm_compute. auto. Qed.
(** bitLength="0" of a signed member is accepted by the checks and then shifts by -1 bit *)
Theorem C08_zero_bits_refuted : ex_int_in true [("type", "int16"); ("bitLength", "0")]%string [] None = UB.
Proof. vm_compute. reflexivity. Qed.
Print Assumptions C08_zero_bits_refuted.

(** ** C09 *)
Theorem C09_offset_partial : forall s, int_reachable s ->
  small_type (i_type s) \/
  offset_fits (i_type s) (wire_bits (i_type s) (i_length s) (i_bitLength s)) (i_serOffset s) ->
  forall v, reported_range (i_type s) (i_min s) (i_max s) v <->
            domain64 (i_type s) v /\ wire_values (i_type s) (i_length s) (i_bitLength s) (v + i_serOffset s).
Proof.
  intros s H F v. apply int_reachable_inv in H.
  apply (offset_spec _ _ _ _ _ _ _ _ (inv_bits _ H) (inv_so _ H) (inv_limits _ H) (or_intror F)).
Qed.
Print Assumptions C09_offset_partial.
Example C09_ex : exists s, ex_int [("type", "uint16"); ("length", "1"); ("serOffset", "-2000")]%string [] None = Ok s /\
  int_reachable s /\ small_type (i_type s) /\ i_min s = 2000 /\ i_max s = 2255.
Proof.
  by_eval E. split; [exact (ex_reach _ _ _ _ E)|].
  vm_compute. repeat split; auto.
Qed.
(** 64 bit types: the moved range can wrap around. uint64 in one byte, offset 300: nothing
    can be serialised, but the reported range is 0 .. 2^64 - 45. *)
Theorem C09_offset_refuted : exists s v, int_reachable s /\
  reported_range (i_type s) (i_min s) (i_max s) v /\
  ~ wire_values (i_type s) (i_length s) (i_bitLength s) (v + i_serOffset s).
Proof.
  exists (got (ex_int [("type", "uint64"); ("length", "1"); ("serOffset", "300")]%string [] None)), 7.
  split; [apply (got_reach false); vm_compute; reflexivity|]. split.
  - vm_compute. eexists _, _. split; [reflexivity|]. split; [reflexivity|]. split; discriminate.
  - intros [_ W]. unfold unsigned_bits in W. vm_compute in W. destruct W as [_ W]; [tauto|discriminate].
Qed.
Print Assumptions C09_offset_refuted.

(** ** C10 *)
Theorem C10_default_fits_type : forall s, int_reachable s ->
  exists v, stands_for (i_type s) (i_default s) v /\ type_values (i_type s) v.
Proof.
  intros s H. apply int_reachable_inv in H. destruct (inv_default _ H) as [D1 D2].
  apply in_limits_spec in D2; auto.
Qed.
Print Assumptions C10_default_fits_type.
(** the default is what the properties say: defaultValidValue (from DSL version 4),
    else defaultValue, else that of the reused field, else 0 *)
Theorem C10_default_text : forall e c p n old s txt, env_num_ok e -> start_ok old ->
  int_parse e c p n old = Ok s ->
  (find_prop p (L "defaultValidValue") = Some txt /\ (e_dsl e = 0 \/ 4 <= e_dsl e) \/
   (find_prop p (L "defaultValidValue") = None \/ 0 < e_dsl e < 4) /\
    find_prop p (L "defaultValue") = Some txt /\ txt <> []) ->
  value_text (i_type s) (e_num e) (numbers (i_specials s)) txt (i_default s).
Proof.
  intros e c p n old s txt He Ho H Ht. apply start_inv in Ho.
  destruct (int_parse_facts _ _ _ _ _ _ He Ho H) as (_ & _ & _ & D & _).
  assert (Esup : prop_supported e (L "defaultValidValue") = (e_dsl e =? 0) || (4 <=? e_dsl e)) by reflexivity.
  apply (D (Some txt)). unfold default_text. rewrite Esup. clear D H.
  destruct Ht as [[E1 E2]|[E1 [E2 E3]]].
  - rewrite E1. replace ((e_dsl e =? 0) || (4 <=? e_dsl e)) with true; [reflexivity|].
    symmetry. apply orb_true_iff. destruct E2; [left|right]; [apply Z.eqb_eq|apply Z.leb_le]; auto.
  - unfold get_prop. rewrite E2. destruct txt as [|a r]; [contradiction|].
    destruct E1 as [E1|E1]; [rewrite E1; reflexivity|].
    replace ((e_dsl e =? 0) || (4 <=? e_dsl e)) with false; [destruct (find_prop p (L "defaultValidValue")); reflexivity|].
    symmetry. apply orb_false_iff. split; [apply Z.eqb_neq|apply Z.leb_gt]; lia.
Qed.
Print Assumptions C10_default_text.
Theorem C10_default_inherited : forall e c p n old s, env_num_ok e -> start_ok old ->
  int_parse e c p n old = Ok s ->
  find_prop p (L "defaultValidValue") = None -> find_prop p (L "defaultValue") = None ->
  i_default s = match old with Some o => i_default o | None => 0 end.
Proof.
  intros e c p n old s He Ho H E1 E2. apply start_inv in Ho.
  destruct (int_parse_facts _ _ _ _ _ _ He Ho H) as (_ & _ & _ & D & _).
  apply (D None). unfold default_text, get_prop. rewrite E1, E2. reflexivity.
Qed.
Print Assumptions C10_default_inherited.
Example C10_ex : exists s, ex_int [("type", "uint8"); ("defaultValue", "Big")]%string
    [ex_child "special" [("name", "Big"); ("val", "0xff")]%string] None = Ok s /\ int_reachable s /\ i_default s = 255.
Proof. by_eval E. split; [exact (ex_reach _ _ _ _ E)|]. reflexivity. Qed.
Example C10_ex_reject : ex_int [("type", "uint8"); ("defaultValue", "256")]%string [] None = Err /\
  ex_int [("type", "uint8"); ("defaultValue", "-1")]%string [] None = Err.
Proof. vm_compute. auto. Qed.

(** ** C11 *)
Theorem C11_special_names_unique : forall s, int_reachable s ->
  NoDup (map fst (i_specials s)) /\ Forall (fun x => identifier (fst x)) (i_specials s).
Proof.
  intros s H. apply int_reachable_inv in H. destruct (inv_sps _ H) as [N F]. split; [exact N|].
  eapply Forall_impl; [|exact F]. intros x (X & _). apply parseIsValidName_spec. exact X.
Qed.
Print Assumptions C11_special_names_unique.
Theorem C11_special_values_fit : forall s, int_reachable s ->
  Forall (fun x => exists v, stands_for (i_type s) (v_value (snd x)) v /\ type_values (i_type s) v) (i_specials s).
Proof.
  intros s H. apply int_reachable_inv in H. destruct (inv_sps _ H) as [N F].
  eapply Forall_impl; [|exact F]. intros x (_ & X & Y). apply in_limits_spec in Y; auto.
Qed.
Print Assumptions C11_special_values_fit.
(** the list of specials is that of the reused field followed by one per <special>
    element, with the name, value and versions written there *)
Theorem C11_specials_as_written : forall e c p n old s, env_num_ok e -> start_ok old -> c_deprecated c <= never ->
  int_parse e c p n old = Ok s ->
  special_elements e (i_type s) (c_since c) (c_deprecated c) (match old with Some o => i_specials o | None => [] end)
     (parseGetChildrenNamed n (L "special")) (i_specials s).
Proof.
  intros e c p n old s He Ho Hd H. apply start_inv in Ho.
  destruct (int_parse_facts _ _ _ _ _ _ He Ho H) as (_ & _ & (new & _ & _ & X & _) & _). apply X, Hd.
Qed.
Print Assumptions C11_specials_as_written.
(** uniqueness of the values: proved for the <special>s of one element *)
Theorem C11_special_values_unique_partial : forall e c p n s, env_num_ok e ->
  int_parse e c p n None = Ok s -> i_nonUniqueSpecials s = false ->
  NoDup (map (fun x => v_value (snd x)) (i_specials s)).
Proof.
  intros e c p n s He H N.
  destruct (int_parse_facts _ _ _ _ _ _ He (I : opt_inv None) H) as (_ & _ & (new & E & _ & _ & _ & U) & _).
  rewrite E. apply U, N.
Qed.
Print Assumptions C11_special_values_unique_partial.
(** with reuse the new specials are not compared with the reused ones *)
Theorem C11_special_values_unique_refuted : exists s, int_reachable s /\ i_nonUniqueSpecials s = false /\
  ~ NoDup (map (fun x => v_value (snd x)) (i_specials s)).
Proof.
  pose (o := got (ex_int [("type", "uint8")]%string [ex_child "special" [("name", "A"); ("val", "5")]%string] None)).
  exists (got (ex_int [] [ex_child "special" [("name", "B"); ("val", "5")]%string] (Some o))).
  split; [|split].
  - eapply ir_reuse with (o := o); [apply ex_env_ok|apply (got_reach false); vm_compute; reflexivity|].
    instantiate (1 := Elem (L "int") [] [ex_child "special" [("name", "B"); ("val", "5")]%string]).
    instantiate (1 := []). instantiate (1 := ex_common 0 false). vm_compute. reflexivity.
  - vm_compute. reflexivity.
  - vm_compute. intros N. inversion N as [|? ? X]. apply X. left. reflexivity.
Qed.
Print Assumptions C11_special_values_unique_refuted.
Example C11_ex : exists s, ex_int [("type", "int8")]%string
    [ex_child "special" [("name", "A"); ("val", "-1"); ("sinceVersion", "2")]%string;
     ex_child "special" [("name", "B"); ("val", "A")]%string] None = Err /\
  ex_int [("type", "int8"); ("nonUniqueSpecialsAllowed", "true")]%string
    [ex_child "special" [("name", "A"); ("val", "-1"); ("sinceVersion", "2")]%string;
     ex_child "special" [("name", "B"); ("val", "A")]%string] None = Ok s /\
  map (fun x => v_value (snd x)) (i_specials s) = [-1; -1] /\ map (fun x => v_since (snd x)) (i_specials s) = [2; 0].
Proof. eexists. vm_compute. repeat split. Qed.

(** ** C12 *)
(** [r] is a range of the reused field or written in this element *)
Definition source (e : env) (c : common) (p : props) (n : node) (old : option int_state) (s : int_state) (r : vrange) : Prop :=
  (exists o, old = Some o /\ In r (i_ranges o)) \/ written_range e c p n s r.
Theorem C12_merge_preserves_partial : forall e c p n old s, env_num_ok e -> start_ok old -> c_deprecated c <= never ->
  int_parse e c p n old = Ok s ->
  (* missing: uint64 / uintvar fields with bounds above 2^63 *)
  (~ big_type (i_type s) \/ forall r, source e c p n old s r -> 0 <= r_min r /\ 0 <= r_max r) ->
  forall v w, allowed (i_type s) (i_ranges s) v w <->
    exists r, source e c p n old s r /\ reported_range (i_type s) (r_min r) (r_max r) v /\
              at_version (r_since r) (r_depr r) w.
Proof.
  intros e c p n old s He Ho Hd H Hbig v w. apply start_inv in Ho.
  destruct (int_parse_facts _ _ _ _ _ _ He Ho H) as (Inv & _ & _ & _ & (dv & new & Hn & H64 & Hnew & Hdv)).
  pose proof (new_ranges_spec _ _ _ _ _ _ _ _ _ Hd (inv_sps _ Inv) Hnew) as Hsp.
  assert (Esup : prop_supported e (L "defaultValidValue") = (e_dsl e =? 0) || (4 <=? e_dsl e)) by reflexivity.
  assert (Hsrc : forall r, In r (old_get old i_ranges [] ++ dv ++ new) <-> source e c p n old s r).
  { intros r. rewrite !in_app_iff, Hsp, Hdv. unfold source. split.
    - intros [X|[X|X]].
      + left. destruct old as [o|]; [eauto|destruct X].
      + right. destruct X as (txt & x & A & B & C & ->). eapply wr_default; eauto.
        rewrite Esup in B. apply orb_true_iff in B as [B|B]; [left; apply Z.eqb_eq|right; apply Z.leb_le]; exact B.
      + right. destruct X as (rp & [X|X]).
        * destruct X as (txt & lo & hi & A & B & ->). eapply wr_attr; eauto.
        * destruct X as (ch & txt & lo & hi & sv & dv' & q & A1 & A2 & A3 & A4 & A5 & A6 & A7 & A8 & A9 & ->).
          eapply wr_child; eauto.
    - intros [(o & -> & X)|X]; [left; exact X|right].
      destruct X as [rp txt lo hi A B|rp ch txt lo hi sv dv' q A1 A2 A3 A4 A5 A6 A7 A8 A9|txt x A B C].
      + right. exists rp. left. exists txt, lo, hi. auto.
      + right. exists rp. right. exists ch, txt, lo, hi, sv, dv', q. auto 12.
      + left. exists txt, x. split; [exact A|]. split; [|auto]. rewrite Esup. apply orb_true_iff.
        destruct B; [left; apply Z.eqb_eq|right; apply Z.leb_le]; auto. }
  assert (Hpl : Forall (plain (is_big (i_type s))) (old_get old i_ranges [] ++ dv ++ new)).
  { apply Forall_forall. intros r Hr. unfold plain. rewrite big_iff in Hbig. destruct Hbig as [B|B].
    - left. apply not_true_is_false. exact B.
    - right. apply B, Hsrc, Hr. }
  assert (K : forall r, r64 r -> plain (is_big (i_type s)) r ->
    (reported_range (i_type s) (r_min r) (r_max r) v /\ at_version (r_since r) (r_depr r) w <-> covers r v w)).
  { intros r R P. rewrite reported_iff. destruct (plain_id _ _ R P) as [-> ->]. reflexivity. }
  assert (P1 : forall r, In r (i_ranges s) -> r64 r /\ plain (is_big (i_type s)) r).
  { intros r Hr. split.
    - pose proof (inv_ranges _ Inv) as F. rewrite Forall_forall in F. auto.
    - destruct (is_big (i_type s)) eqn:Eb; [right|left; reflexivity].
      pose proof (normalise_64 _ _ _ (fun z => 0 <= z) Hn) as F. rewrite !Forall_forall in F.
      apply F; [|exact Hr]. intros x Hx. rewrite Forall_forall in Hpl. destruct (Hpl x Hx) as [X|X]; [discriminate|exact X]. }
  pose proof (normalise_covered _ _ _ Hn H64 Hpl v w) as C. unfold covered in C.
  unfold allowed. split.
  - intros (r & Hr & R). destruct (P1 r Hr) as [R1 R2]. apply (K r R1 R2) in R.
    destruct (proj1 C) as (x & Hx & Cx); [eauto|]. exists x. split; [apply Hsrc, Hx|].
    rewrite Forall_forall in *. apply K; auto.
  - intros (x & Hx & R). apply Hsrc in Hx. rewrite Forall_forall in *. apply K in R; auto.
    destruct (proj2 C) as (r & Hr & Cr); [eauto|]. exists r. split; [exact Hr|].
    destruct (P1 r Hr). apply K; auto.
Qed.
Print Assumptions C12_merge_preserves_partial.
Example C12_ex : exists s, ex_int [("type", "int16"); ("validRange", "[-5, 7]"); ("validValue", "8")]%string
    [ex_child "validRange" [("value", "[20, 30]"); ("sinceVersion", "3")]%string;
     ex_child "validValue" [("value", "31"); ("sinceVersion", "3")]%string;
     ex_child "validMax" [("value", "-100")]%string] None = Ok s /\ ~ big_type (i_type s) /\
  i_ranges s = [mkRange (-32768) (-100) 0 never; mkRange (-5) 8 0 never; mkRange 20 31 3 never].
Proof. eexists. split; [vm_compute; reflexivity|]. vm_compute. split; [intuition discriminate|reflexivity]. Qed.
(** unsigned 64 bit fields: values from 2^63 on are compared as negative ones, so
    [1, 5] "absorbs" [3, 2^64 - 1] *)
Theorem C12_merge_refuted : exists s, 
  ex_int [("type", "uint64"); ("validRange", "[1, 5]")]%string
    [ex_child "validRange" [("value", "[3, 0xffffffffffffffff]")]%string] None = Ok s /\
  i_ranges s = [mkRange 1 5 0 never].
Proof. eexists. split; vm_compute; reflexivity. Qed.
Print Assumptions C12_merge_refuted.
(** INT64_MAX + 1 is evaluated when another range follows one that ends at INT64_MAX *)
Theorem C12_overflow_refuted :
  ex_int [("type", "int64"); ("validRange", "[0, 9223372036854775807]"); ("validValue", "5")]%string [] None = UB.
Proof. vm_compute. reflexivity. Qed.
Print Assumptions C12_overflow_refuted.

(** ** C13 *)
(** by minimal, then maximal value *)
Definition value_order (t : int_type) (a b : vrange) : Prop :=
  exists a1 b1 a2 b2, stands_for t (r_min a) a1 /\ stands_for t (r_min b) b1 /\
    stands_for t (r_max a) a2 /\ stands_for t (r_max b) b2 /\ (a1 < b1 \/ a1 = b1 /\ a2 <= b2).
Theorem C13_ranges_sorted : forall s, int_reachable s -> StronglySorted (value_order (i_type s)) (i_ranges s).
Proof.
  intros s H. apply int_reachable_inv in H.
  eapply (SS_impl _ _ (fun _ => True)); [|apply Forall_forall; auto|apply (inv_sorted _ H)].
  intros a b _ _ N. unfold value_order. eexists _, _, _, _. rewrite !stands_iff.
  split; [reflexivity|]. split; [reflexivity|]. split; [reflexivity|]. split; [reflexivity|].
  unfold wlt in N. lia.
Qed.
Print Assumptions C13_ranges_sorted.
Theorem C13_ranges_disjoint_partial : forall e c p n old s, env_num_ok e -> start_ok old -> c_deprecated c <= never ->
  int_parse e c p n old = Ok s ->
  (* missing: uint64 / uintvar fields with bounds above 2^63 *)
  ~ big_type (i_type s) ->
  forall i j a b, nth_error (i_ranges s) i = Some a -> nth_error (i_ranges s) j = Some b -> i <> j ->
    r_since a = r_since b -> r_depr a = r_depr b -> r_max a + 1 < r_min b \/ r_max b + 1 < r_min a.
Proof.
  intros e c p n old s He Ho Hd H Hbig i j a b Hi Hj Hij E1 E2. apply start_inv in Ho.
  destruct (int_parse_facts _ _ _ _ _ _ He Ho H) as (Inv & _ & _ & _ & (dv & new & Hn & H64 & _)).
  assert (Hpl : Forall (plain (is_big (i_type s))) (old_get old i_ranges [] ++ dv ++ new)).
  { apply Forall_forall. intros r _. left. rewrite big_iff in Hbig. apply not_true_is_false. exact Hbig. }
  assert (S := normalise_separate _ _ _ Hn H64 Hpl).
  apply (FOP_nth separate) with (i := i) (j := j) (a := a) (b := b) in S; auto.
  unfold separate. intros x y X F1 F2. destruct X; auto.
Qed.
Print Assumptions C13_ranges_disjoint_partial.
Theorem C13_ranges_disjoint_refuted : exists s a b v, int_reachable s /\
  i_ranges s = [a; b] /\ r_since a = r_since b /\ r_depr a = r_depr b /\
  reported_range (i_type s) (r_min a) (r_max a) v /\ reported_range (i_type s) (r_min b) (r_max b) v.
Proof.
  pose (r := ex_int [("type", "uint64"); ("validRange", "[0, 0x8000000000000000]")]%string
    [ex_child "validRange" [("value", "[5, 10]")]%string] None).
  exists (got r), (mkRange 0 (-9223372036854775808) 0 never), (mkRange 5 10 0 never), 7.
  split; [apply (got_reach false); vm_compute; reflexivity|]. split; [vm_compute; reflexivity|].
  split; [reflexivity|]. split; [reflexivity|].
  split; eexists _, _; (split; [vm_compute; reflexivity|]; split; [vm_compute; reflexivity|]; split; discriminate).
Qed.
Print Assumptions C13_ranges_disjoint_refuted.

(** ** C14 *)
Theorem C14_int_lengths : forall s, int_reachable s ->
  1 <= i_length s <= type_bytes (i_type s) /\ 0 <= i_bitLength s <= 8 * i_length s /\
  (variable_type (i_type s) -> i_bitLength s = 8 * i_length s).
Proof.
  intros s H. apply int_reachable_inv in H. destruct (inv_bits _ H) as (B1 & B2 & B3).
  assert (max_type_length (i_type s) = type_bytes (i_type s)) by (destruct (i_type s); reflexivity).
  split; [lia|]. split; [lia|]. intros V. apply B3. unfold variable_type in V.
  destruct (i_type s); simpl in *; intuition congruence.
Qed.
Print Assumptions C14_int_lengths.
Theorem C14_int_reuse_keeps_type_and_length : forall e c p n o s, env_num_ok e -> int_reachable o ->
  int_parse e c p n (Some o) = Ok s -> i_type s = i_type o /\ i_length s = i_length o.
Proof.
  intros e c p n o s He Ho H. apply int_reachable_inv in Ho.
  destruct (int_parse_facts _ _ _ _ _ _ He (Ho : opt_inv (Some o)) H) as (_ & X & _). auto.
Qed.
Print Assumptions C14_int_reuse_keeps_type_and_length.
Example C14_ex : exists s, ex_int_in true [("type", "uint32"); ("length", "3"); ("bitLength", "23")]%string [] None = Ok s /\
  int_reachable s /\ i_length s = 3 /\ i_bitLength s = 23 /\
  ex_int [("type", "uint32"); ("length", "5")]%string [] None = Err /\
  ex_int_in true [("type", "uint32"); ("length", "3"); ("bitLength", "25")]%string [] None = Err /\
  ex_int [("length", "4")]%string [] (Some s) = Err /\ ex_int [("length", "3")]%string [] (Some s) <> Err.
Proof.
  by_eval E. split; [exact (ex_reach _ _ _ _ E)|].
  vm_compute. repeat split; auto. discriminate.
Qed.
