(** Facts about the generated options of set fields. *)
From Coq Require Import Ascii String ZArith List Bool Lia Sorted Permutation.
From Coq Require Import ZifyBool ZifyNat.
Import ListNotations.
From Verif.Model Require Import Base Common Xml Units Field FieldCommon IntField SetField GenUtil GenComms CommsInt CommsSet.
From Verif.Spec Require Import Texts Ints Versions IntSpec GenSpec CppSpec SetCode.
From Verif.Proofs Require Import BaseFacts IntFacts RangeFacts EnumInv GenFacts CommsIntFacts CommsOptFacts.
Open Scope Z_scope.

(** ** Bits *)
Lemma testbit_mask i k : 0 <= i -> 0 <= k -> Z.testbit (bit_mask i) k = (k =? i).
Proof.
  intros Hi Hk. unfold bit_mask. rewrite Z.shiftl_1_l. destruct (Z.eqb_spec k i) as [-> |N]; [now apply Z.pow2_bits_true|].
  apply Z.pow2_bits_false. congruence.
Qed.
Lemma testbit_with b v i k : 0 <= i -> 0 <= k -> Z.testbit (with_bit b v i) k = if k =? i then b else Z.testbit v k.
Proof.
  intros Hi Hk. unfold with_bit. destruct b; [rewrite Z.lor_spec|rewrite Z.ldiff_spec]; rewrite testbit_mask by assumption; destruct (k =? i).
  - apply orb_true_r.
  - apply orb_false_r.
  - apply andb_false_r.
  - apply andb_true_r.
Qed.
Lemma testbit_ones64 k : 0 <= k < 64 -> Z.testbit ones64 k = true.
Proof. intros H. change ones64 with (Z.ones 64). apply Z.ones_spec_low. lia. Qed.
Lemma length_mask_ones n : 0 <= n -> length_mask n = Z.ones (Z.min n 64).
Proof.
  intros H. unfold length_mask, max_bits. destruct (n <? 64) eqn:E.
  - replace (Z.min n 64) with n by lia. unfold bit_mask, Z.ones. rewrite Z.shiftl_1_l. lia.
  - replace (Z.min n 64) with 64 by lia. reflexivity.
Qed.
Lemma land_ones_range x n : 0 <= n <= 64 -> 0 <= Z.land x (Z.ones n) < two64.
Proof.
  intros H. rewrite Z.land_ones by lia. pose proof (Z.mod_pos_bound x (2 ^ n) ltac:(apply Z.pow_pos_nonneg; lia)) as B.
  assert (2 ^ n <= 2 ^ 64) by (apply Z.pow_le_mono_r; lia). change (2 ^ 64) with two64 in *. lia.
Qed.
Lemma testbit_land_ones x n k : 0 <= n -> 0 <= k -> Z.testbit (Z.land x (Z.ones n)) k = (k <? n) && Z.testbit x k.
Proof.
  intros Hn Hk. rewrite Z.land_spec. destruct (k <? n) eqn:E; [rewrite Z.ones_spec_low by lia|rewrite Z.ones_spec_high by lia].
  - apply andb_true_r.
  - apply andb_false_r.
Qed.
Lemma land_eq_iff v m r : 0 <= v -> 0 <= m -> 0 <= r -> (Z.land v m = r <-> forall k, 0 <= k -> Z.testbit v k && Z.testbit m k = Z.testbit r k).
Proof.
  intros Hv Hm Hr. split.
  - intros <- k Hk. now rewrite Z.land_spec.
  - intros H. apply Z.bits_inj'. intros k Hk. rewrite Z.land_spec. now apply H.
Qed.

(** ** Default value *)
Lemma default_fold l : Forall (fun x => 0 <= b_idx (snd x)) l -> forall v k, 0 <= k < 64 ->
  (exists x, In x l /\ b_idx (snd x) = k /\ Z.testbit (fold_left default_step l v) k = b_default (snd x)) \/
  ((forall x, In x l -> b_idx (snd x) <> k) /\ Z.testbit (fold_left default_step l v) k = Z.testbit v k).
Proof.
  induction 1 as [|x l Hx F IH]; intros v k Hk; cbn [fold_left].
  - right. split; [intros ? []|reflexivity].
  - destruct (IH (default_step v x) k Hk) as [(y & I & E & K)|[N K]]; [left; exists y; cbn; auto|].
    rewrite K. unfold default_step, max_bits. destruct (64 <=? b_idx (snd x)) eqn:E.
    + right. split; [|reflexivity]. intros y [<-|I]; [lia|auto].
    + rewrite testbit_with by lia. destruct (Z.eqb_spec k (b_idx (snd x))) as [E'|E'].
      * left. exists x. cbn. auto.
      * right. split; [|reflexivity]. intros y [<-|I]; [congruence|auto].
Qed.
Lemma in_bits_map s x : In x (bits_map s) <-> In x (s_bits s).
Proof. apply sort_In. Qed.
Lemma idx_pos s : set_inv s -> Forall (fun x => 0 <= b_idx (snd x)) (bits_map s).
Proof.
  intros Inv. apply Forall_forall. intros x Hx. apply in_bits_map in Hx. pose proof (sinv_ok _ Inv) as F. rewrite Forall_forall in F. now destruct (F x Hx) as (_ & ? & _).
Qed.
Lemma used_bits_pos c s : set_inv s -> 0 < used_bits c s /\ bits_of (c_inBitfield c) s (Z.min (used_bits c s) 64).
Proof.
  intros Inv. destruct (sinv_type _ Inv) as (t & _ & _ & R). pose proof (sinv_bits _ Inv) as B. unfold used_bits, set_bit_length, bits_of.
  destruct (c_inBitfield c).
  - replace (s_bitLength s =? 0) with false by lia. lia.
  - change (0 =? 0) with true. cbv iota. lia.
Qed.

(** ** Reserved bits *)
Definition bit_skipped (ge : gen_env) (check : bool) (b : bit_info) : bool :=
  check && negb (genDoesElementExist (ge_ver ge) (b_since b) (b_depr b) true).
Definition bit_freed (c : common) (check : bool) (b : bit_info) : bool :=
  (check && ((c_since c <? b_since b) || (b_depr b <? c_deprecated c))) || negb (b_reserved b).
Lemma reserved_fold ge c check l : Forall (fun x => 0 <= b_idx (snd x)) l -> forall m v mu m' v' mu' k, 0 <= k < 64 ->
  fold_left (reserved_step ge c check) l (m, v, mu) = (m', v', mu') ->
  (exists x, In x l /\ b_idx (snd x) = k /\ bit_skipped ge check (snd x) = false /\ bit_freed c check (snd x) = true /\ Z.testbit m' k = false) \/
  ((forall x, In x l -> b_idx (snd x) = k -> bit_skipped ge check (snd x) = false -> bit_freed c check (snd x) = false) /\
   Z.testbit m' k = Z.testbit m k /\
   ((exists x, In x l /\ b_idx (snd x) = k /\ bit_skipped ge check (snd x) = false /\ Z.testbit v' k = b_reservedValue (snd x)) \/
    ((forall x, In x l -> b_idx (snd x) = k -> bit_skipped ge check (snd x) = true) /\ Z.testbit v' k = Z.testbit v k))).
Proof.
  induction 1 as [|x l Hx F IH]; intros m v mu m' v' mu' k Hk H; cbn [fold_left] in H.
  - injection H as <- <- <-. right. split; [intros ? []|]. split; [reflexivity|]. right. split; [intros ? []|reflexivity].
  - destruct (reserved_step ge c check (m, v, mu) x) as [[m1 v1] mu1] eqn:E.
    destruct (IH m1 v1 mu1 m' v' mu' k Hk H) as [(y & I & Ey & S & Fr & K)|(N & K1 & K2)].
    { left. exists y. cbn. auto. }
    unfold reserved_step in E. unfold bit_skipped, bit_freed, max_bits in *.
    destruct (64 <=? b_idx (snd x)) eqn:E64.
    { injection E as <- <- <-. right. split; [intros y [<-|I]; [lia|auto]|]. split; [exact K1|].
      destruct K2 as [(y & I & K2)|[K2 K3]]; [left; exists y; cbn; auto|]. right. split; [intros y [<-|I]; [lia|auto]|exact K3]. }
    destruct (check && negb (genDoesElementExist (ge_ver ge) (b_since (snd x)) (b_depr (snd x)) true)) eqn:Es.
    { injection E as <- <- <-. right. split; [intros y [<-|I]; [congruence|auto]|]. split; [exact K1|].
      destruct K2 as [(y & I & K2)|[K2 K3]]; [left; exists y; cbn; auto|]. right. split; [intros y [<-|I]; [auto|auto]|exact K3]. }
    destruct (check && ((c_since c <? b_since (snd x)) || (b_depr (snd x) <? c_deprecated c)) || negb (b_reserved (snd x))) eqn:Ef.
    + assert (E' : m1 = with_bit false m (b_idx (snd x)) /\ v1 = with_bit false v (b_idx (snd x))).
      { destruct (check && ((c_since c <? b_since (snd x)) || (b_depr (snd x) <? c_deprecated c))); [injection E as <- <- <-; auto|].
        cbn [orb] in Ef. rewrite Ef in E. injection E as <- <- <-. auto. }
      destruct E' as [-> ->]. rewrite testbit_with in K1 by lia. destruct (Z.eqb_spec k (b_idx (snd x))) as [Ek|Ek].
      * left. exists x. cbn. auto.
      * right. split; [intros y [<-|I]; [congruence|auto]|]. split; [exact K1|].
        destruct K2 as [(y & I & K2)|[K2 K3]]; [left; exists y; cbn; auto|]. right. rewrite testbit_with in K3 by lia.
        replace (k =? b_idx (snd x)) with false in K3 by lia. split; [intros y [<-|I]; [congruence|auto]|exact K3].
    + apply orb_false_iff in Ef as [Ef1 Ef2]. rewrite Ef1, Ef2 in E. injection E as <- <- <-.
      right. split; [intros y [<-|I]; [intros _ _; rewrite Ef1, Ef2; reflexivity|auto]|]. split; [exact K1|].
      destruct K2 as [(y & I & K2)|[K2 K3]]; [left; exists y; cbn; auto|]. rewrite testbit_with in K3 by lia.
      destruct (Z.eqb_spec k (b_idx (snd x))) as [Ek|Ek].
      * left. exists x. cbn. auto.
      * right. split; [intros y [<-|I]; [congruence|auto]|exact K3].
Qed.
(** the number in the option: what it asks of a bit *)
Lemma reserved_bits ge c s mask value must : set_inv s -> set_reserved ge c s = (mask, value, must) ->
  0 <= mask < two64 /\ 0 <= value < two64 /\
  forall k, 0 <= k ->
   (Z.testbit mask k = true -> k < Z.min (used_bits c s) 64) /\ (Z.testbit value k = true -> Z.testbit mask k = true) /\
   (k < Z.min (used_bits c s) 64 ->
    (exists x, In x (s_bits s) /\ b_idx (snd x) = k /\ bit_skipped ge (set_check ge s) (snd x) = false /\ bit_freed c (set_check ge s) (snd x) = true /\
       Z.testbit mask k = false) \/
    ((forall x, In x (s_bits s) -> b_idx (snd x) = k -> bit_skipped ge (set_check ge s) (snd x) = false -> bit_freed c (set_check ge s) (snd x) = false) /\
     Z.testbit mask k = true /\
     ((exists x, In x (s_bits s) /\ b_idx (snd x) = k /\ bit_skipped ge (set_check ge s) (snd x) = false /\ Z.testbit value k = b_reservedValue (snd x)) \/
      ((forall x, In x (s_bits s) -> b_idx (snd x) = k -> bit_skipped ge (set_check ge s) (snd x) = true) /\ Z.testbit value k = s_reservedBit s)))).
Proof.
  intros Inv H. unfold set_reserved in H.
  destruct (fold_left (reserved_step ge c (set_check ge s)) (bits_map s) (ones64, if s_reservedBit s then ones64 else 0, false)) as [[m v] mu] eqn:E.
  destruct (used_bits_pos c s Inv) as [U _]. rewrite length_mask_ones in H by lia.
  apply pair_equal_spec in H as [H <-]. apply pair_equal_spec in H as [<- <-].
  split; [apply land_ones_range; lia|]. split; [apply land_ones_range; lia|]. intros k Hk.
  rewrite !testbit_land_ones by lia. rewrite Z.land_spec.
  split; [lia|]. split; [intros Q; destruct (k <? Z.min (used_bits c s) 64), (Z.testbit v k), (Z.testbit m k); try discriminate; reflexivity|].
  intros Lt. replace (k <? Z.min (used_bits c s) 64) with true by lia. cbn [andb].
  destruct (reserved_fold ge c (set_check ge s) _ (idx_pos s Inv) _ _ _ _ _ _ k ltac:(lia) E) as [(x & I & Ex & S & Fr & K)|(N & K1 & K2)].
  - left. exists x. apply in_bits_map in I. auto.
  - right. split; [intros x I; apply N; now apply in_bits_map|]. rewrite testbit_ones64 in K1 by lia. split; [exact K1|]. rewrite K1, andb_true_r.
    destruct K2 as [(x & I & Ex & S & K2)|[K2 K3]]; [left; exists x; apply in_bits_map in I; auto|]. right.
    split; [intros x I; apply K2; now apply in_bits_map|]. rewrite K3. destruct (s_reservedBit s); [apply testbit_ones64; lia|apply Z.bits_0].
Qed.
Lemma reserved_fold_must ge c check l : forall m v mu m' v' mu', fold_left (reserved_step ge c check) l (m, v, mu) = (m', v', mu') ->
  (mu' = true <-> mu = true \/ exists x, In x l /\ b_idx (snd x) < 64 /\ check = true /\ bit_skipped ge check (snd x) = false /\
     ((c_since c <? b_since (snd x)) || (b_depr (snd x) <? c_deprecated c)) = true).
Proof.
  induction l as [|x l IH]; intros m v mu m' v' mu' H; cbn [fold_left] in H.
  - injection H as <- <- <-. split; [auto|]. intros [Q|(x & [] & _)]; exact Q.
  - destruct (reserved_step ge c check (m, v, mu) x) as [[m1 v1] mu1] eqn:E. rewrite (IH _ _ _ _ _ _ H). clear IH H.
    assert (Q : mu1 = true <-> mu = true \/ (b_idx (snd x) < 64 /\ check = true /\ bit_skipped ge check (snd x) = false /\
       ((c_since c <? b_since (snd x)) || (b_depr (snd x) <? c_deprecated c)) = true)).
    { unfold reserved_step, bit_skipped, max_bits in *. destruct (64 <=? b_idx (snd x)) eqn:E64; [injection E as <- <- <-; split; [auto|]; intros [Q|(Q & _)]; [exact Q|lia]|].
      destruct check; cbn [andb] in *.
      - destruct (genDoesElementExist (ge_ver ge) (b_since (snd x)) (b_depr (snd x)) true); cbn [negb] in *.
        + destruct ((c_since c <? b_since (snd x)) || (b_depr (snd x) <? c_deprecated c)).
          * injection E as <- <- <-. split; [intros _; right; repeat split; lia|reflexivity].
          * destruct (negb (b_reserved (snd x))); injection E as <- <- <-; (split; [auto|]; intros [Q|(_ & _ & _ & Q)]; [exact Q|discriminate]).
        + injection E as <- <- <-. split; [auto|]. intros [Q|(_ & _ & Q & _)]; [exact Q|discriminate].
      - destruct (negb (b_reserved (snd x))); injection E as <- <- <-; (split; [auto|]; intros [Q|(_ & Q & _)]; [exact Q|discriminate]). }
    rewrite Q. clear. split.
    + intros [[Q|Q]|(y & I & Q)]; [auto|right; exists x; cbn; auto|right; exists y; cbn; auto].
    + intros [Q|(y & [<-|I] & Q)]; [auto|auto|right; exists y; auto].
Qed.
