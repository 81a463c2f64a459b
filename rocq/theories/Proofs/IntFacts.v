From Verif.Model Require Import Base Common Xml Units Field FieldCommon IntField.
From Verif.Spec Require Import Texts Ints Versions IntSpec.
From Verif.Proofs Require Import BaseFacts CommonFacts.
From Coq Require Import ZifyBool ZifyNat.

Lemma int_type_eqb_eq a b : int_type_eqb a b = true <-> a = b.
Proof. destruct a, b; simpl; split; congruence. Qed.

Lemma stoll_is64 s v : stoll s = Some v -> is64 v.
Proof.
  unfold stoll, is64. destruct (sign (skip_space s)) as [n r]. destruct (magnitude r); [|discriminate].
  cbv zeta. match goal with |- context [if ?b then _ else _] => destruct b eqn:E end; [|discriminate].
  intros [= <-]. lia.
Qed.
Lemma stoull_u64 s v : stoull s = Some v -> 0 <= v < two64.
Proof.
  intros H. apply stoull_spec in H as (w & _ & _ & ->). apply Z.mod_pos_bound. reflexivity.
Qed.
Lemma unsigned_u32 s v : parseStrToUnsigned s = Some v -> 0 <= v < two32.
Proof.
  unfold parseStrToUnsigned. destruct (stoull s); [|discriminate]. intros [= <-].
  apply Z.mod_pos_bound. reflexivity.
Qed.

Lemma int_str_to_value_64 e t sp s v :
  env_num_ok e -> Forall (fun x => is64 (v_value (snd x))) sp ->
  int_str_to_value e t sp s = Some v -> is64 v.
Proof.
  intros He Hs. unfold int_str_to_value.
  destruct (if parseIsValidName s then assoc s sp else None) as [x|] eqn:E.
  - intros [= <-]. destruct (parseIsValidName s); [|discriminate].
    clear - E Hs. induction Hs as [|[k y] l Hy Hs IH]; simpl in E; [discriminate|].
    destruct (str_eqb k s); [injection E as ->; exact Hy|auto].
  - destruct (parseIsValidRefName s).
    + destruct (e_num e s) as [[w b]|] eqn:En; [|discriminate].
      destruct (negb b && (w <? 0) && is_unsigned t); [discriminate|].
      destruct (b && negb (is_big t)); [discriminate|]. intros [= <-]. apply (He _ _ _ En).
    + destruct (is_big t).
      * unfold parseStrToUintMax. destruct (stoull s); [|discriminate]. intros [= <-]. apply to_s64_range.
      * apply stoll_is64.
Qed.

(** ** Limits *)
Definition limits_check (t : int_type) (len bits : Z) : bool :=
  let w := wire_bits t len bits in
  match calc_min t bits, calc_max t bits with
  | Ok mn, Ok mx =>
      if is_unsigned t then (mn =? 0) && (to_u64 mx =? 2 ^ w - 1) && (is_big t || (mx =? 2 ^ w - 1))
                            && (w <=? 64)
      else (0 <? w) && (w <=? 64) && (mn =? - 2 ^ (w - 1)) && (mx =? 2 ^ (w - 1) - 1)
  | _, _ => negb (is_unsigned t) && (bits =? 0)
  end.
Definition bits_ok (t : int_type) (len bits : Z) : Prop :=
  0 < len <= max_type_length t /\ 0 <= bits <= 8 * len /\ (is_var t = true -> bits = 8 * len).
Lemma limits_check_ok t len bits : bits_ok t len bits -> limits_check t len bits = true.
Proof.
  intros (Hl & Hb & Hv).
  assert (H : forallb (fun l => forallb (fun b =>
     negb ((0 <? l) && (l <=? max_type_length t) && (b <=? 8 * l) && (negb (is_var t) || (b =? 8 * l)))
     || limits_check t l b)
     (map Z.of_nat (seq 0 81))) (map Z.of_nat (seq 0 11)) = true).
  { destruct t; vm_compute; reflexivity. }
  assert (Hm : max_type_length t <= 10) by (destruct t; simpl; lia).
  pose proof (zrange_forallb _ _ H len ltac:(lia)) as H1. cbv beta in H1.
  pose proof (zrange_forallb _ _ H1 bits ltac:(lia)) as H2. cbv beta in H2.
  apply orb_true_iff in H2 as [H2|H2]; [|exact H2]. exfalso.
  destruct (is_var t) eqn:Ev; [specialize (Hv eq_refl)|]; lia.
Qed.

Lemma signed_iff t : signed_type t <-> is_unsigned t = false.
Proof. unfold signed_type; destruct t; simpl; intuition congruence. Qed.
Lemma unsigned_iff t : unsigned_type t <-> is_unsigned t = true.
Proof. unfold unsigned_type; destruct t; simpl; intuition congruence. Qed.
Lemma stands_iff t st v : stands_for t st v <-> v = as_cmp (is_big t) st.
Proof. unfold stands_for, as_cmp, to_u64, two64. destruct t; simpl; tauto. Qed.
Lemma reported_iff t lo hi v :
  reported_range t lo hi v <-> as_cmp (is_big t) lo <= v <= as_cmp (is_big t) hi.
Proof.
  unfold reported_range. split.
  - intros (l & h & H1 & H2 & H). apply stands_iff in H1, H2. subst. exact H.
  - intros H. exists (as_cmp (is_big t) lo), (as_cmp (is_big t) hi). rewrite !stands_iff. auto.
Qed.

Lemma limits_spec t len bits mn mx : bits_ok t len bits ->
  calc_min t bits = Ok mn -> calc_max t bits = Ok mx ->
  forall v, reported_range t mn mx v <-> wire_values t len bits v.
Proof.
  intros Hb E1 E2 v. pose proof (limits_check_ok _ _ _ Hb) as C. unfold limits_check in C.
  rewrite E1, E2 in C. rewrite reported_iff. unfold wire_values, signed_bits, unsigned_bits.
  rewrite signed_iff, unsigned_iff.
  destruct (is_unsigned t) eqn:Eu.
  - assert (Hb' : as_cmp (is_big t) mn = 0 /\ as_cmp (is_big t) mx = 2 ^ wire_bits t len bits - 1).
    { unfold as_cmp. destruct (is_big t); split; try lia. assert (mn = 0) by lia. subst. reflexivity. }
    destruct Hb' as [-> ->]. split; [intros; split; [congruence|intros _; lia]|].
    intros [_ H]. specialize (H eq_refl). lia.
  - assert (is_big t = false) by (destruct t; simpl in *; congruence).
    rewrite H. unfold as_cmp. split; [intros; split; [intros _; lia|congruence]|].
    intros [H1 _]. specialize (H1 eq_refl). lia.
Qed.

Lemma type_limits_vals t :
  if is_unsigned t
  then as_cmp (is_big t) (min_type_value t) = 0 /\ as_cmp (is_big t) (max_type_value t) = 2 ^ value_bits t - 1
  else as_cmp (is_big t) (min_type_value t) = - 2 ^ (value_bits t - 1) /\
       as_cmp (is_big t) (max_type_value t) = 2 ^ (value_bits t - 1) - 1.
Proof. destruct t; vm_compute; split; reflexivity. Qed.
Lemma type_limits_spec t v :
  reported_range t (min_type_value t) (max_type_value t) v <-> type_values t v.
Proof.
  rewrite reported_iff. unfold type_values, signed_bits, unsigned_bits.
  rewrite signed_iff, unsigned_iff. pose proof (type_limits_vals t) as H.
  destruct (is_unsigned t) eqn:Eu; destruct H as [-> ->].
  - split; [intros; split; [congruence|intros _; lia]|]. intros [_ H]. specialize (H eq_refl). lia.
  - split; [intros; split; [intros _; lia|congruence]|]. intros [H _]. specialize (H eq_refl). lia.
Qed.

Lemma in_limits_spec t v : is64 v ->
  in_limits (is_big t) (min_type_value t) (max_type_value t) v = true <->
  exists w, stands_for t v w /\ type_values t w.
Proof.
  intros H6. unfold in_limits. split.
  - intros H. exists (as_cmp (is_big t) v). split; [apply stands_iff; reflexivity|].
    apply type_limits_spec, reported_iff. lia.
  - intros (w & Hw & Ht). apply stands_iff in Hw. subst.
    apply type_limits_spec, reported_iff in Ht. lia.
Qed.

Lemma calc_forms t len bits mn mx : bits_ok t len bits ->
  calc_min t bits = Ok mn -> calc_max t bits = Ok mx ->
  let w := wire_bits t len bits in
  w <= 64 /\
  if is_unsigned t then mn = 0 /\ to_u64 mx = 2 ^ w - 1 /\ (is_big t = false -> mx = 2 ^ w - 1)
  else 0 < w /\ mn = - 2 ^ (w - 1) /\ mx = 2 ^ (w - 1) - 1.
Proof.
  intros Hb E1 E2 w. pose proof (limits_check_ok _ _ _ Hb) as C. unfold limits_check in C.
  rewrite E1, E2 in C. fold w in C. destruct (is_unsigned t).
  - split; [lia|]. split; [lia|]. split; [lia|]. intros Hb'. rewrite Hb' in C. lia.
  - lia.
Qed.

Lemma pow_le_64 w : 0 <= w <= 64 -> 1 <= 2 ^ w <= 2 ^ 64.
Proof.
  intros H. split.
  - apply (Z.pow_le_mono_r 2 0 w); lia.
  - apply Z.pow_le_mono_r; lia.
Qed.
Lemma small_wire t len bits : bits_ok t len bits -> is_big t = false -> is_unsigned t = true ->
  0 <= wire_bits t len bits <= 32.
Proof.
  intros (Hl & Hb & _) H1 H2. destruct t; cbn [is_big is_unsigned max_type_length wire_bits] in *; try discriminate; lia.
Qed.
Lemma small_wire_s t len bits : bits_ok t len bits -> small_type t ->
  wire_bits t len bits <= 32.
Proof.
  intros (Hl & Hb & _) H1. unfold small_type in H1. cbn [In] in H1.
  destruct t; cbn [max_type_length wire_bits] in *; try lia; exfalso; intuition congruence.
Qed.
Lemma wire_nonneg t len bits : bits_ok t len bits -> 0 <= wire_bits t len bits.
Proof. intros (Hl & Hb & _). destruct t; cbn [wire_bits] in *; lia. Qed.

Definition k63 : Z := 9223372036854775808.
Definition k64 : Z := 18446744073709551616.
Lemma e63 : 2 ^ 63 = k63. Proof. reflexivity. Qed.
Lemma e64 : 2 ^ 64 = k64. Proof. reflexivity. Qed.


Ltac num := unfold is64, int_min, int_max, uint_max, two63, two64, k63, k64 in *; lia.
Lemma off_min_u so : is64 so -> off_min_unsigned so 0 = Z.max 0 (- so).
Proof.
  intros H. unfold off_min_unsigned. destruct (Z.ltb_spec so 0).
  - rewrite to_u64_id; num.
  - rewrite (to_u64_id so) by num. destruct (Z.ltb_spec so 0); lia.
Qed.
Lemma off_max_u so W : is64 so -> 1 <= W <= k64 -> (W = k64 \/ W - so < k64) -> so < W ->
  off_max_unsigned so (W - 1) = Z.min (k64 - 1) (W - 1 - so).
Proof.
  intros H HW Hf Hs. unfold off_max_unsigned. destruct (Z.ltb_spec so 0).
  - rewrite (to_u64_id (uint_max + so)) by num.
    destruct (Z.ltb_spec (W - 1) (uint_max + so)).
    + rewrite to_u64_id by num. num.
    + num.
  - rewrite to_u64_id by num. num.
Qed.
Lemma off_max_us so W : Z.abs so < 4294967296 -> 1 <= W <= 4294967296 ->
  to_s64 (off_max_unsigned so (W - 1)) = W - 1 - so.
Proof.
  intros H HW. unfold off_max_unsigned. destruct (Z.ltb_spec so 0).
  - rewrite (to_u64_id (uint_max + so)) by num.
    destruct (Z.ltb_spec (W - 1) (uint_max + so)); [|num].
    rewrite to_u64_id by num. apply to_s64_id. num.
  - rewrite to_s64_u64. apply to_s64_id. num.
Qed.
Lemma off_min_s so W v : is64 so -> 1 <= W <= k63 -> (W = k63 \/ - k63 < - W - so) ->
  off_min_signed so (- W) = Ok v -> v = Z.max int_min (- W - so).
Proof.
  intros H HW Hf H1. unfold off_min_signed in H1. destruct (Z.ltb_spec so 0).
  - apply s64_Ok in H1 as [-> ?]. num.
  - apply bind_Ok in H1 as (l & Hl & H1). apply s64_Ok in Hl as [-> _].
    destruct (Z.ltb_spec (int_min + so) (- W)).
    + apply s64_Ok in H1 as [-> _]. num.
    + injection H1 as <-. num.
Qed.
Lemma off_max_s so W v : is64 so -> 1 <= W <= k63 -> (W = k63 \/ W - so < k63) ->
  off_max_signed so (W - 1) = Ok v -> v = Z.min int_max (W - 1 - so).
Proof.
  intros H HW Hf H1. unfold off_max_signed in H1. destruct (Z.ltb_spec so 0).
  - apply bind_Ok in H1 as (l & Hl & H1). apply s64_Ok in Hl as [-> _].
    destruct (Z.ltb_spec (W - 1) (int_max + so)).
    + apply s64_Ok in H1 as [-> _]. num.
    + injection H1 as <-. num.
  - apply s64_Ok in H1 as [-> ?]. num.
Qed.
Lemma small_max t : small_type t -> is_big t = false /\ (max_type_value t =? int_max) = false /\
  max_type_value t - min_type_value t <= 4294967295.
Proof.
  unfold small_type; destruct t; cbn [In]; intros H; try (exfalso; intuition congruence);
  vm_compute; repeat split; discriminate.
Qed.
Lemma small_dec t : small_type t \/ ~ small_type t.
Proof. unfold small_type; destruct t; cbn [In]; intuition congruence. Qed.
Lemma small_off t so : small_type t ->
  (if is_big t || (max_type_value t =? int_max) then Ok tt
   else a <- s64 (Z.abs so) ;; guard (a <? max_type_value t - min_type_value t)) = Ok tt ->
  Z.abs so < 4294967296.
Proof.
  intros Hs H. destruct (small_max _ Hs) as (E1 & E2 & E3). rewrite E1, E2 in H. cbn [orb] in H.
  apply bind_Ok in H as (a & Ha & H). apply s64_Ok in Ha as [-> _]. apply guard_Ok in H. lia.
Qed.

Lemma pow_le_w w b : 0 <= w <= b -> 1 <= 2 ^ w <= 2 ^ b.
Proof.
  intros H. split; [apply (Z.pow_le_mono_r 2 0 w)|apply Z.pow_le_mono_r]; lia.
Qed.

(** the limits after the serialisation offset *)
Lemma offset_spec t len bits so tmin tmax mn mx : bits_ok t len bits -> is64 so ->
  int_min_max t bits so = Ok (tmin, tmax, mn, mx) ->
  (so = 0 \/ small_type t \/ offset_fits t (wire_bits t len bits) so) ->
  forall v, reported_range t mn mx v <-> domain64 t v /\ wire_values t len bits (v + so).
Proof.
  intros Hb H6 H Hf v. unfold int_min_max in H.
  apply bind_Ok in H as (m0 & E1 & H). apply bind_Ok in H as (m1 & E2 & H).
  pose proof (calc_forms _ _ _ _ _ Hb E1 E2) as Hc. cbv zeta in Hc. clear E1 E2.
  pose proof (small_wire_s t len bits Hb) as Hss.
  pose proof (wire_nonneg _ _ _ Hb) as Hwn. clear Hb.
  rewrite reported_iff. unfold wire_values, domain64, signed_bits, unsigned_bits, offset_fits in *.
  rewrite signed_iff, unsigned_iff in *.
  remember (wire_bits t len bits) as w eqn:Ew. clear Ew.
  change (64 - 1) with 63. rewrite e63, e64 in *. destruct Hc as [Hw Hc].
  pose proof (pow_le_w w 64 ltac:(lia)) as P64. rewrite e64 in P64.
  destruct (is_unsigned t) eqn:Eu.
  - assert (W64 : w = 64 -> 2 ^ w = k64) by (intros ->; reflexivity).
    assert (W32 : small_type t -> 2 ^ w <= 4294967296).
    { intros Hs. apply (Z.pow_le_mono_r 2 w 32); [lia|auto]. }
    clear Hss. remember (2 ^ w) as W eqn:EW. clear EW.
    assert (HR : as_cmp (is_big t) mn = Z.max 0 (- so) /\ as_cmp (is_big t) mx = Z.min (k64 - 1) (W - 1 - so)).
    { destruct Hc as (-> & Hc & Hc').
      destruct (Z.eqb_spec so 0) as [->|Hne].
      + injection H as <- <- <- <-.
        destruct (is_big t); cbn [as_cmp]; [rewrite Hc|rewrite (Hc' eq_refl)]; split; try reflexivity; num.
      + destruct Hf as [Hf|Hf]; [contradiction|].
        apply bind_Ok in H as ([] & Hg & H). cbn [negb] in H. injection H as <- <- <- <-.
        rewrite Hc. change (to_u64 0) with 0. rewrite off_min_u by exact H6.
        destruct (is_big t) eqn:Eb; cbn [as_cmp].
        * rewrite !to_u64_s64.
          assert (Hns : ~ small_type t) by (unfold small_type; destruct t; cbn in *; intuition congruence).
          destruct Hf as [Hf|[_ Hf]]; [contradiction|]. specialize (Hf eq_refl) as [Hf1 Hf2].
          rewrite off_max_u by (auto; intuition). rewrite !to_u64_id by num. auto.
        * assert (Hsm : small_type t) by (unfold small_type; destruct t; cbn in *; intuition congruence).
          assert (Ha : Z.abs so < 4294967296) by (apply (small_off t); [auto|rewrite Eb; exact Hg]).
          specialize (W32 Hsm). rewrite off_max_us by lia. rewrite to_s64_id by num. num. }
    destruct HR as [-> ->]. clear - P64 H6. split.
    + intros Hv. split; (split; [discriminate|intros _]); num.
    + intros [[_ D] [_ V]]. specialize (D eq_refl). specialize (V eq_refl). num.
  - assert (Ebig : is_big t = false) by (destruct t; cbn in *; congruence). rewrite Ebig in *. cbn [as_cmp].
    destruct Hc as (Hw0 & -> & ->).
    pose proof (pow_le_w (w-1) 63 ltac:(lia)) as P63. rewrite e63 in P63.
    assert (W64 : w = 64 -> 2 ^ (w-1) = k63) by (intros ->; reflexivity).
    assert (W32 : small_type t -> 2 ^ (w-1) <= 2147483648).
    { intros Hs. apply (Z.pow_le_mono_r 2 (w-1) 31); [lia|specialize (Hss Hs); lia]. }
    clear Hss P64. remember (2 ^ (w-1)) as W eqn:EW. clear EW.
    assert (HR : mn = Z.max int_min (- W - so) /\ mx = Z.min int_max (W - 1 - so)).
    { destruct (Z.eqb_spec so 0) as [->|Hne].
      - injection H as <- <- <- <-. num.
      - destruct Hf as [Hf|Hf]; [contradiction|].
        apply bind_Ok in H as ([] & Hg & H). cbn [negb] in H.
        apply bind_Ok in H as (a & Ha & H). apply bind_Ok in H as (b & Hbb & H). injection H as <- <- <- <-.
        assert (Hfit : W = k63 \/ W - so < k63 /\ - k63 < - W - so).
        { destruct Hf as [Hs|[Hf _]].
          - assert (Z.abs so < 4294967296) by (apply (small_off t); [auto|rewrite Ebig; exact Hg]).
            specialize (W32 Hs). num.
          - specialize (Hf eq_refl). intuition. }
        split; [apply (off_min_s _ _ _ H6 P63) in Ha|apply (off_max_s _ _ _ H6 P63) in Hbb]; auto; intuition. }
    destruct HR as [-> ->]. clear - P63 H6. split.
    + intros Hv. split; (split; [intros _|discriminate]); num.
    + intros [[D _] [V _]]. specialize (D eq_refl). specialize (V eq_refl). num.
Qed.
