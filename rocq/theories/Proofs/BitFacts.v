(** Facts about the code for the named bits of set fields. *)
From Coq Require Import Lia Sorted Permutation ZifyBool ZifyNat.
From Verif.Model Require Import Base Common Xml Units Field FieldCommon IntField SetField GenUtil GenComms CommsInt CommsSet CommsBits.
From Verif.Spec Require Import Texts Ints Versions IntSpec EnumSpec GenSpec NameSpec CppSpec CondCode BodySpec EnumCode SetCode BitCode.
From Verif.Proofs Require Import BaseFacts CommonFacts IntFacts RangeFacts IntInv EnumInv GenFacts RefFacts TemplateFacts CommsIntFacts CommsOptFacts CondCodeFacts CondTextFacts CondExprFacts CondMeanFacts EnumTextFacts EnumGenFacts SetFacts.
From Verif.Props Require Import PTexts PTemplate PCondCode.
Local Open Scope string_scope. Local Open Scope Z_scope. Local Open Scope list_scope.

(** ** Masks *)
Lemma low_mask_nat (k : nat) : forall m, 0 <= m < 2 ^ Z.of_nat k -> Z.land (m + 1) m = 0 -> exists n, 0 <= n <= Z.of_nat k /\ m = 2 ^ n - 1.
Proof.
  induction k as [|k IH]; intros m R H.
  - exists 0. cbn in R. split; [lia|]. cbn. lia.
  - destruct (Z.odd m) eqn:O.
    + apply Z.odd_spec in O as (q & ->). replace (Z.of_nat (S k)) with (Z.of_nat k + 1) in R by lia. rewrite Z.pow_add_r in R by lia.
      replace (2 * q + 1 + 1) with (2 * (q + 1)) in H by lia.
      assert (H' : Z.land (q + 1) q = 0).
      { apply Z.bits_inj'. intros i Hi. rewrite Z.bits_0. assert (K : Z.testbit (Z.land (2 * (q + 1)) (2 * q + 1)) (i + 1) = false) by (rewrite H; apply Z.bits_0).
        rewrite Z.land_spec in *. replace (i + 1) with (Z.succ i) in K by lia. rewrite Z.testbit_even_succ, Z.testbit_odd_succ in K by lia. exact K. }
      destruct (IH q) as (n & Rn & ->); [lia|exact H'|]. exists (n + 1). split; [lia|]. rewrite Z.pow_add_r by lia. lia.
    + assert (E : Z.even m = true) by (rewrite <- Z.negb_odd, O; reflexivity). apply Z.even_spec in E as (q & ->).
      assert (q = 0) as ->; [|exists 0; split; [lia|reflexivity]].
      apply Z.bits_inj'. intros i Hi. rewrite Z.bits_0. assert (K : Z.testbit (Z.land (2 * q + 1) (2 * q)) (Z.succ i) = false) by (rewrite H; apply Z.bits_0).
      rewrite Z.land_spec, Z.testbit_even_succ, Z.testbit_odd_succ in K by lia. destruct (Z.testbit q i); [discriminate|reflexivity].
Qed.
Lemma low_mask m : 0 <= m < 2 ^ 64 -> Z.land (to_u64 (m + 1)) m = 0 -> exists n, 0 <= n <= 64 /\ m = 2 ^ n - 1.
Proof.
  intros R H. destruct (Z.eq_dec m (2 ^ 64 - 1)) as [->|N]; [exists 64; split; [lia|reflexivity]|].
  rewrite to_u64_id in H by (change two64 with (2 ^ 64); lia). exact (low_mask_nat 64 m R H).
Qed.
Lemma low_bits n k : 0 <= n -> 0 <= k -> Z.testbit (2 ^ n - 1) k = (k <? n).
Proof. intros A B. replace (2 ^ n - 1) with (Z.ones n) by (rewrite Z.ones_equiv; lia). rewrite Z.testbit_ones by lia. destruct (0 <=? k) eqn:E; [reflexivity|lia]. Qed.
Lemma mask_fold l : forall m k, 0 <= k -> Forall (fun x : Z * str => 0 <= fst x) l ->
  Z.testbit (fold_left (fun m x => Z.lor m (bit_mask (fst x))) l m) k = Z.testbit m k || existsb (fun x => fst x =? k) l.
Proof.
  induction l as [|x l IH]; intros m k K F; cbn [fold_left existsb]; [now rewrite orb_false_r|]. inversion F as [|? ? Fx Fl]; subst.
  rewrite IH by assumption. rewrite Z.lor_spec. unfold bit_mask. rewrite Z.shiftl_1_l, Z.pow2_bits_eqb by exact Fx. destruct (Z.testbit m k), (fst x =? k); reflexivity.
Qed.
Lemma mask_range l : forall m, 0 <= m < 2 ^ 64 -> Forall (fun x : Z * str => 0 <= fst x < 64) l ->
  0 <= fold_left (fun m x => Z.lor m (bit_mask (fst x))) l m < 2 ^ 64.
Proof.
  induction l as [|x l IH]; intros m R F; cbn [fold_left]; [exact R|]. inversion F as [|? ? Fx Fl]; subst. apply IH; [|exact Fl].
  unfold bit_mask. rewrite Z.shiftl_1_l. assert (0 <= 2 ^ fst x < 2 ^ 64) by (split; [lia|apply Z.pow_lt_mono_r; lia]).
  split; [apply Z.lor_nonneg; lia|]. destruct (Z.eq_dec (Z.lor m (2 ^ fst x)) 0) as [->|N]; [lia|].
  apply Z.log2_lt_pow2; [pose proof (proj2 (Z.lor_nonneg m (2 ^ fst x)) ltac:(lia)); lia|]. rewrite Z.log2_lor by lia.
  apply Z.max_lub_lt.
  - destruct (Z.eq_dec m 0) as [->|]; [cbn; lia|]. apply Z.log2_lt_pow2; lia.
  - rewrite Z.log2_pow2 by lia. lia.
Qed.
Lemma consecutive l : forall a n, StronglySorted (fun x y : Z * str => fst x < fst y) l -> (forall k, (exists m, In (k, m) l) <-> a <= k < a + Z.of_nat n) ->
  map fst l = map (fun i => a + Z.of_nat i) (seq 0 n).
Proof.
  induction l as [|[k m] l IH]; intros a n S H.
  - destruct n as [|n]; [reflexivity|]. exfalso. destruct (proj2 (H a) ltac:(lia)) as (m & []).
  - inversion S as [|? ? S1 S2]; subst. rewrite Forall_forall in S2. destruct n as [|n]; [exfalso; specialize (proj1 (H k) (ex_intro _ m (or_introl eq_refl))); lia|].
    assert (k = a).
    { pose proof (proj1 (H k) (ex_intro _ m (or_introl eq_refl))). destruct (proj2 (H a) ltac:(lia)) as (m' & [E|I]); [congruence|]. specialize (S2 _ I). cbn [fst] in S2. lia. }
    subst k. cbn [map seq]. f_equal; [cbn [fst]; lia|]. rewrite (IH (a + 1) n S1).
    + rewrite <- seq_shift, map_map. apply map_ext. intros i. lia.
    + intros k. split.
      * intros (m' & I). pose proof (S2 _ I) as Q. cbn [fst] in Q. pose proof (proj1 (H k) (ex_intro _ m' (or_intror I))). lia.
      * intros R. destruct (proj2 (H k) ltac:(lia)) as (m' & [E|I]); [exfalso; apply pair_equal_spec in E; lia|eauto].
Qed.

(** ** The bits which are named *)
Lemma revb_In s k n : In (k, n) (rev_bits s) <-> exists b, declared_bit s k n b.
Proof.
  unfold rev_bits. rewrite sort_In, in_map_iff. split.
  - intros ([m b] & E & I). cbn [fst snd] in E. apply pair_equal_spec in E as [<- <-]. exists b. split; [exact I|reflexivity].
  - intros (b & I & <-). exists (n, b). auto.
Qed.
Lemma revb_sorted s : StronglySorted (fun a b : Z * str => fst a <= fst b) (rev_bits s).
Proof. unfold rev_bits. exact (key_sorted fst _). Qed.
Lemma access_In s k n : In (k, n) (access_bits s) <-> k < 64 /\ exists b, declared_bit s k n b.
Proof. unfold access_bits. rewrite filter_In, revb_In. cbn [fst]. unfold max_bits. split; intros [A B]; (split; [|assumption || lia]); lia || assumption. Qed.
Lemma bit_In s n b : set_inv s -> In (n, b) (s_bits s) -> assoc n (s_bits s) = Some b /\ parseIsValidName n = true /\ 0 <= b_idx b.
Proof.
  intros Inv I. split; [exact (NoDup_assoc _ _ _ (sinv_names _ Inv) I)|]. pose proof (sinv_ok _ Inv) as F. rewrite Forall_forall in F. destruct (F _ I) as (A & B & _). auto.
Qed.
Lemma access_names s : set_inv s -> NoDup (map snd (access_bits s)).
Proof.
  intros Inv. assert (P : Permutation (rev_bits s) (map (fun x => (b_idx (snd x), fst x)) (s_bits s))) by (unfold rev_bits; apply sort_perm).
  assert (N : NoDup (map snd (rev_bits s))).
  { eapply Permutation_NoDup; [apply Permutation_map, Permutation_sym, P|]. rewrite map_map. exact (sinv_names _ Inv). }
  clear P. unfold access_bits. induction (rev_bits s) as [|x l IH]; [constructor|]. cbn [map filter] in *. inversion N as [|? ? N1 N2]; subst.
  destruct (fst x <? max_bits); [|auto]. cbn [map]. constructor; [|auto]. intros I. apply N1. apply in_map_iff in I as (y & E & I). apply filter_In in I as [I _]. apply in_map_iff. eauto.
Qed.
Lemma access_seq_spec s : set_inv s -> access_seq s = true -> map fst (access_bits s) = map Z.of_nat (seq 0 (length (access_bits s))).
Proof.
  intros Inv H. unfold access_seq in H. apply andb_true_iff in H as [U M]. apply Z.eqb_eq in M.
  assert (F : Forall (fun x : Z * str => 0 <= fst x < 64) (access_bits s)).
  { apply Forall_forall. intros [k n] I. apply access_In in I as (Lt & b & I & <-). cbn [fst]. apply (bit_In s n b Inv) in I. lia. }
  destruct (low_mask (access_mask s)) as (n & Rn & E); [apply mask_range; [lia|exact F]|exact M|].
  assert (B : forall k, (exists m, In (k, m) (access_bits s)) <-> 0 <= k < n).
  { intros k. split.
    - intros (m & I). rewrite Forall_forall in F. pose proof (F _ I) as Fk. cbn [fst] in Fk. split; [lia|].
      assert (T : Z.testbit (access_mask s) k = true).
      { unfold access_mask. rewrite mask_fold; [|lia|apply Forall_forall; intros x Hx; specialize (F x Hx); cbv beta in F; lia].
        apply orb_true_iff. right. apply existsb_exists. exists (k, m). split; [exact I|]. cbn [fst]. lia. }
      rewrite E, low_bits in T by lia. lia.
    - intros R. assert (T : Z.testbit (access_mask s) k = true) by (rewrite E, low_bits by lia; lia).
      unfold access_mask in T. rewrite mask_fold in T; [|lia|eapply Forall_impl; [|exact F]; cbv beta; intros; lia].
      rewrite Z.bits_0 in T. cbn [orb] in T. apply existsb_exists in T as ([j m] & I & Ej). cbn [fst] in Ej. exists m. replace k with j by lia. exact I. }
  assert (S : StronglySorted (fun x y : Z * str => fst x < fst y) (access_bits s)).
  { assert (Nd : NoDup (map fst (rev_bits s))).
    { eapply Permutation_NoDup; [apply Permutation_map; unfold rev_bits; apply Permutation_sym, sort_perm|]. rewrite map_map. cbn [fst]. apply idx_unique_spec. exact U. }
    unfold access_bits. apply sorted_filter2. pose proof (revb_sorted s) as S. induction S as [|x l S IH Fx]; [constructor|]. cbn [map] in Nd. inversion Nd as [|? ? N1 N2]; subst.
    constructor; [auto|]. rewrite Forall_forall in *. intros y Iy. specialize (Fx y Iy). cbv beta in Fx. destruct (Z.eq_dec (fst x) (fst y)) as [Q|Q]; [|lia]. exfalso. apply N1. rewrite Q. now apply in_map. }
  assert (Q := consecutive (access_bits s) 0 (Z.to_nat n) S). rewrite Z2Nat.id in Q by lia. specialize (Q B).
  assert (Ln : length (access_bits s) = Z.to_nat n) by (rewrite <- (map_length fst), Q, map_length, seq_length; reflexivity).
  rewrite Q, Ln. apply map_ext. intros i. lia.
Qed.
Lemma bits_limit s : set_reachable s -> s_type s <> Some Uintvar -> forall k n b, declared_bit s k n b -> k < 64.
Proof.
  intros R N k n b [I <-].
  assert (Ty : forall s', set_inv s' -> s_type s' <> Some Uintvar -> s_bitLength s' <= 64).
  { intros s' Inv N'. destruct (sinv_type _ Inv) as (t & Et & U & Ln). pose proof (sinv_bits _ Inv) as Bt.
    assert (max_type_length t <= 8) by (destruct t; try discriminate U; cbn; lia || congruence). lia. }
  revert N b I. induction R as [e c p nd s H|e c p nd o s Ro IH H]; intros N b I.
  - destruct (set_parse_facts e c p nd None s Logic.I H) as (Inv & _ & new & E & F & _). rewrite E in I. cbn [sold app] in I. rewrite Forall_forall in F. specialize (F _ I). cbn [snd] in F. specialize (Ty s Inv N). lia.
  - destruct (set_parse_facts e c p nd (Some o) s (set_reachable_inv o Ro) H) as (Inv & K & new & E & F & _). rewrite E in I. cbn [sold] in I. destruct (K o eq_refl) as [K1 _].
    apply in_app_or in I as [I|I]; [apply IH; [congruence|exact I]|]. rewrite Forall_forall in F. specialize (F _ I). cbn [snd] in F. specialize (Ty s Inv N). lia.
Qed.

(** ** Rows *)
Definition row_ok (a : txt) : Prop := flat a /\ exists c r, a = c :: r /\ c <> " "%char.
Lemma row_is a : row_ok a -> rows_are a [a].
Proof. intros (F & c & r & -> & N). now apply rows_flat. Qed.
Lemma row_more a b : row_ok a -> flat b -> row_ok (a ++ b).
Proof. intros (F & c & r & -> & N) Fb. split; [now apply flat_app|]. exists c, (r ++ b). auto. Qed.
Lemma arg_rows_are args : args <> [] -> Forall row_ok args -> rows_are (join (T "," ++ [newline]) args) (arg_rows args).
Proof.
  intros N F. induction F as [|a l Ra F IH]; [congruence|]. destruct l as [|b l]; [now apply row_is|].
  rewrite join_cons2 by discriminate. replace (a ++ (T "," ++ [newline]) ++ join (T "," ++ [newline]) (b :: l)) with ((a ++ T ",") ++ newline :: join (T "," ++ [newline]) (b :: l)) by (rewrite <- !app_assoc; reflexivity).
  change (arg_rows (a :: b :: l)) with ([a ++ T ","] ++ arg_rows (b :: l)). apply rows_more; [|apply IH; discriminate]. apply row_is, row_more; [exact Ra|apply flat_dec; reflexivity].
Qed.
Lemma name_row n : parseIsValidName n = true -> row_ok n /\ tame n.
Proof. intros V. destruct (name_text n V) as (F & _ & Tm & c & r & E & N). split; [split; eauto|exact Tm]. Qed.
Lemma row_dec a : match a with [] => false | c :: _ => negb (Ascii.eqb c " ") && forallb (fun c => negb (Ascii.eqb c newline)) a end = true -> row_ok a.
Proof.
  destruct a as [|c r]; [discriminate|]. intros H. apply andb_true_iff in H as [N F]. split; [now apply flat_dec|]. exists c, r. split; [reflexivity|]. intros ->. discriminate N.
Qed.
Lemma rows_lit rows y : Forall row_ok rows -> unindent true (whole rows ++ y) = whole rows ++ unindent true y.
Proof.
  induction 1 as [|r rows R F IH]; [reflexivity|]. change (r :: rows) with ([r] ++ rows). rewrite whole_app, <- !app_assoc.
  replace (whole [r] ++ whole rows ++ y) with (r ++ newline :: (whole rows ++ y)) by (unfold whole; cbn [map concat]; rewrite app_nil_r, <- app_assoc; reflexivity).
  rewrite (row_is r R), IH. reflexivity.
Qed.

(** ** Documentation *)
Lemma dec_digits v : Forall (fun c => In c ["0"; "1"; "2"; "3"; "4"; "5"; "6"; "7"; "8"; "9"]%char) (dec_str v).
Proof.
  unfold dec_str. assert (G : forall n v acc, Forall (fun c => In c ["0"; "1"; "2"; "3"; "4"; "5"; "6"; "7"; "8"; "9"]%char) acc ->
    Forall (fun c => In c ["0"; "1"; "2"; "3"; "4"; "5"; "6"; "7"; "8"; "9"]%char) (to_base n 10 false v acc)); [|apply G; constructor].
  clear v. induction n as [|n IH]; intros v acc F; [exact F|]. cbn [to_base]. cbv zeta.
  assert (D : In (digit_chr false (v mod 10)) ["0"; "1"; "2"; "3"; "4"; "5"; "6"; "7"; "8"; "9"]%char).
  { pose proof (Z.mod_pos_bound v 10 ltac:(lia)) as R. set (d := v mod 10) in *. clearbody d.
    assert (d = 0 \/ d = 1 \/ d = 2 \/ d = 3 \/ d = 4 \/ d = 5 \/ d = 6 \/ d = 7 \/ d = 8 \/ d = 9) as K by lia.
    repeat (destruct K as [->|K]; [vm_compute; tauto|]). subst d. vm_compute. tauto. }
  destruct (v / 10 =? 0); [|apply IH]; now constructor.
Qed.
Lemma dec_plain v : flat (dec_str v) /\ tame (dec_str v).
Proof.
  pose proof (dec_digits v) as F. rewrite Forall_forall in F. split; intros I; apply F in I; vm_compute in I; intuition discriminate.
Qed.
Lemma doc_is ge s n t : flat t -> tame t -> exists rs, rows_are (T "///" ++ t ++ deprecated_text ge s n) rs /\ Forall comment rs.
Proof.
  intros F K. assert (C : comment (T "///" ++ t)) by now apply comment_lead.
  assert (R : row_ok (T "///" ++ t)) by (apply row_more; [now apply row_dec|exact F]).
  unfold deprecated_text. destruct (assoc n (s_bits s)) as [b|]; [destruct (genIsElementDeprecated _ _)|].
  - exists ([T "///" ++ t] ++ [T "///          Deprecated since version " ++ dec_str (b_depr b) ++ T "."]).
    destruct (dec_plain (b_depr b)) as [Fd Td]. split.
    + replace (T "///" ++ t ++ nl :: L "///          Deprecated since version " ++ dec_str (b_depr b) ++ L ".") with ((T "///" ++ t) ++ newline :: (T "///          Deprecated since version " ++ dec_str (b_depr b) ++ T ".")) by (rewrite <- !app_assoc; reflexivity).
      apply rows_more; [now apply row_is|]. apply row_is, row_more; [now apply row_dec|]. apply flat_app; [exact Fd|apply flat_dec; reflexivity].
    + constructor; [exact C|]. constructor; [|constructor]. apply (comment_lead (T "          Deprecated since version " ++ dec_str (b_depr b) ++ T ".")).
      * repeat apply flat_app; auto; apply flat_dec; reflexivity.
      * repeat apply tame_app; auto; apply tame_lit; reflexivity.
  - exists [T "///" ++ t]. rewrite app_nil_r. split; [now apply row_is|auto].
  - exists [T "///" ++ t]. rewrite app_nil_r. split; [now apply row_is|auto].
Qed.
Lemma docs_are ge s f names : names <> [] -> (forall n, In n names -> exists t, f n = T "///" ++ t ++ deprecated_text ge s n /\ flat t /\ tame t) ->
  exists rs, rows_are (join [newline] (map f names)) rs /\ Forall comment rs /\ join [newline] (map f names) <> [].
Proof.
  intros N H. assert (K : exists rss, Forall2 rows_are (map f names) rss /\ Forall (Forall comment) rss).
  { clear N. induction names as [|n l IH]; [exists []; split; constructor|]. destruct IH as (rss & A & B); [auto using in_cons|].
    destruct (H n (or_introl eq_refl)) as (t & E & F & Tm). destruct (doc_is ge s n t F Tm) as (rs & R & C). exists (rs :: rss). cbn [map]. rewrite E. split; constructor; auto. }
  destruct K as (rss & A & B). exists (concat rss). split; [apply EnumTextFacts.rows_join; [exact A|destruct names; [congruence|discriminate]]|]. split.
  - apply Forall_concat. exact B.
  - destruct names as [|n l]; [congruence|]. destruct (H n (or_introl eq_refl)) as (t & E & _). cbn [map]. rewrite E. destruct l; cbn [map]; discriminate.
Qed.

(** ** The text *)
Lemma names_rows s : set_inv s -> Forall (fun n => row_ok n /\ tame n) (map snd (access_bits s)).
Proof.
  intros Inv. apply Forall_forall. intros n I. apply in_map_iff in I as ([k m] & <- & I). apply access_In in I as (_ & b & I & _). apply name_row. now apply (bit_In s m b Inv) in I.
Qed.
Definition seq_lead : list txt := map (fun r => T r)
  ["/// @brief Provides names and generates access functions for internal bits."; "/// @details See definition of @b COMMS_BITMASK_BITS_SEQ macro";
   "///     related to @b comms::field::BitmaskValue class from COMMS library"; "///     for details."; "///"; "///      The generated enum values and functions are:"].
Definition seq_pieces : list piece :=
  [Text (whole seq_lead); Hole (T "ACCESS_DOC"); Text ([nl] ++ L "COMMS_BITMASK_BITS_SEQ(" ++ [nl] ++ L "    "); Hole (T "NAMES"); Text ([nl] ++ L ");" ++ [nl])].
Ltac template_tac := repeat (constructor; [apply plain_no_hash, in_b_not; vm_compute; reflexivity|apply name_no_hash, in_b_not; vm_compute; reflexivity|]);
  constructor; apply end_no_hash, in_b_not; vm_compute; reflexivity.
Lemma seq_template : template seq_pieces.
Proof. unfold seq_pieces. template_tac. Qed.
Definition row_okb (a : txt) : bool := match a with [] => false | c :: _ => negb (Ascii.eqb c " ") && forallb (fun c => negb (Ascii.eqb c newline)) a end.
Lemma rows_dec rows : forallb row_okb rows = true -> Forall row_ok rows.
Proof. intros H. apply Forall_forall. intros r I. rewrite forallb_forall in H. apply row_dec. exact (H r I). Qed.
Lemma comments_dec rows : forallb (fun r => match r with a :: b :: c :: r => Ascii.eqb a "/" && Ascii.eqb b "/" && Ascii.eqb c "/" && forallb (fun c => negb (Ascii.eqb c newline)) r && forallb (fun c => negb (Ascii.eqb c "\")) r | _ => false end) rows = true -> Forall comment rows.
Proof.
  intros H. apply Forall_forall. intros r I. rewrite forallb_forall in H. specialize (H r I). destruct r as [|a [|b [|c r]]]; try discriminate H.
  apply andb_true_iff in H as [H K]. apply andb_true_iff in H as [H F]. apply andb_true_iff in H as [H E3]. apply andb_true_iff in H as [E1 E2].
  apply Ascii.eqb_eq in E1, E2, E3. subst. apply (comment_lead r); [now apply flat_dec|now apply tame_lit].
Qed.
Lemma join_row sep args : args <> [] -> Forall row_ok args -> join sep args <> [].
Proof. intros N F. destruct F as [|a l (_ & c & r & -> & _) F]; [congruence|]. destruct l; discriminate. Qed.
Lemma seq_text ge s text names : map snd (access_bits s) = names -> names <> [] -> Forall (fun n => row_ok n /\ tame n) names ->
  genProcessTemplate seq_templ [(L "ACCESS_DOC", genStrListToString (map (seq_doc ge s) names) [nl] []); (L "NAMES", genStrListToString names (L "," ++ [nl]) [])] false = Ok text ->
  exists before, Forall comment before /\ unindent true text = whole (before ++ call_rows "COMMS_BITMASK_BITS_SEQ" names).
Proof.
  intros _ N F H. rewrite !list_join in H. 
  destruct (docs_are ge s (seq_doc ge s) names N) as (rs & R & C & Nd).
  { intros n I. rewrite Forall_forall in F. destruct (F n I) as [(Fn & _) Tn].
    exists (T "      @li @b BitIdx_" ++ n ++ T ", @b getBitValue_" ++ n ++ T "() and @b setBitValue_" ++ n ++ T "()."). split; [unfold seq_doc; rewrite <- !app_assoc; reflexivity|].
    split; [repeat apply flat_app; auto; apply flat_dec; reflexivity|repeat apply tame_app; auto; apply tame_lit; reflexivity]. }
  assert (Fr : Forall row_ok names) by (eapply Forall_impl; [|exact F]; intros a Q; exact (proj1 Q)).
  pose proof (arg_rows_are names N Fr) as A. pose proof (join_row (T "," ++ [newline]) names N Fr) as Na.
  change (L "," ++ [nl]) with (T "," ++ [newline]) in H. change [nl] with [newline] in H at 1.
  set (D := join [newline] (map (seq_doc ge s) names)) in *. set (J := join (T "," ++ [newline]) names) in *. clearbody D J.
  change seq_templ with (template_text seq_pieces) in H. rewrite C36_filled in H; [|exact seq_template|].
  2: { intros k I. cbn [holes seq_pieces In] in I. repeat destruct I as [<-|I]; try contradiction; assumption. }
  apply Ok_inj in H. subst text. exists (seq_lead ++ rs). split; [apply Forall_app; split; [apply comments_dec; vm_compute; reflexivity|exact C]|].
  cbn [filled seq_pieces]. change (lookup (T "ACCESS_DOC") _) with D. change (lookup (T "NAMES") _) with J.
  repeat match goal with |- context [indented (column ?x) _] => generalize (column x); intro end.
  match goal with |- unindent true ?t = _ => replace t with (whole seq_lead ++ (indented n D ++ newline :: (T "COMMS_BITMASK_BITS_SEQ(" ++ newline :: (repeat " "%char 4 ++ (indented n0 J ++ newline :: (T ");" ++ newline :: []))))))
    by (rewrite <- !app_assoc; reflexivity) end.
  rewrite rows_lit by (apply rows_dec; vm_compute; reflexivity).
  rewrite unindent_indented, R, (row_is (T "COMMS_BITMASK_BITS_SEQ(")) by (apply row_dec; reflexivity).
  rewrite unindent_blanks, unindent_indented, A, (row_is (T ");")) by (apply row_dec; reflexivity). cbn [unindent]. rewrite app_nil_r.
  unfold call_rows. rewrite !whole_app, <- !app_assoc. reflexivity.
Qed.
Definition own_lead : list txt := map (fun r => T r)
  ["/// @brief Provide names for internal bits."; "/// @details See definition of @b COMMS_BITMASK_BITS macro";
   "///     related to @b comms::field::BitmaskValue class from COMMS library"; "///     for details."; "///"; "///      The generated enum values:"].
Definition own_lead2 : list txt := map (fun r => T r)
  ["/// @brief Generates independent access functions for internal bits."; "/// @details See definition of @b COMMS_BITMASK_BITS_ACCESS macro";
   "///     related to @b comms::field::BitmaskValue class from COMMS library"; "///     for details."; "///"; "///     The generated access functions are:"].
Definition own_pieces : list piece :=
  [Text (whole own_lead); Hole (T "BITS_DOC"); Text ([nl] ++ L "COMMS_BITMASK_BITS(" ++ [nl] ++ L "    "); Hole (T "BITS"); Text ([nl] ++ L ");" ++ [nl; nl] ++ whole own_lead2);
   Hole (T "ACCESS_DOC"); Text ([nl] ++ L "COMMS_BITMASK_BITS_ACCESS(" ++ [nl] ++ L "    "); Hole (T "NAMES"); Text ([nl] ++ L ");" ++ [nl])].
Lemma own_template : template own_pieces.
Proof. unfold own_pieces. template_tac. Qed.
Lemma own_text ge s text names : names <> [] -> Forall (fun n => row_ok n /\ tame n) names -> Forall row_ok (map (bit_number s) names) ->
  genProcessTemplate own_templ
         [(L "ACCESS_DOC", genStrListToString (map (access_doc ge s) names) [nl] []);
          (L "NAMES", genStrListToString names (L "," ++ [nl]) []);
          (L "BITS_DOC", genStrListToString (map (bits_doc ge s) names) [nl] []);
          (L "BITS", genStrListToString (map (bit_number s) names) (L "," ++ [nl]) [])] false = Ok text ->
  exists before between, Forall comment before /\ Forall comment between /\
    unindent true text = whole (before ++ call_rows "COMMS_BITMASK_BITS" (map (bit_number s) names) ++ [[]] ++ between ++ call_rows "COMMS_BITMASK_BITS_ACCESS" names).
Proof.
  intros N F Fb H. rewrite !list_join in H.
  destruct (docs_are ge s (access_doc ge s) names N) as (rs & R & C & Nd).
  { intros n I. rewrite Forall_forall in F. destruct (F n I) as [(Fn & _) Tn].
    exists (T "      @li @b getBitValue_" ++ n ++ T "() and @b setBitValue_" ++ n ++ T "()."). split; [unfold access_doc; rewrite <- !app_assoc; reflexivity|].
    split; [repeat apply flat_app; auto; apply flat_dec; reflexivity|repeat apply tame_app; auto; apply tame_lit; reflexivity]. }
  destruct (docs_are ge s (bits_doc ge s) names N) as (rs2 & R2 & C2 & Nd2).
  { intros n I. rewrite Forall_forall in F. destruct (F n I) as [(Fn & _) Tn].
    exists (T "      @li @b BitIdx_" ++ n ++ T "."). split; [unfold bits_doc; rewrite <- !app_assoc; reflexivity|].
    split; [repeat apply flat_app; auto; apply flat_dec; reflexivity|repeat apply tame_app; auto; apply tame_lit; reflexivity]. }
  assert (Fr : Forall row_ok names) by (eapply Forall_impl; [|exact F]; intros a Q; exact (proj1 Q)).
  assert (Nb : map (bit_number s) names <> []) by (destruct names; [congruence|discriminate]).
  pose proof (arg_rows_are names N Fr) as A. pose proof (join_row (T "," ++ [newline]) names N Fr) as Na.
  pose proof (arg_rows_are _ Nb Fb) as A2. pose proof (join_row (T "," ++ [newline]) _ Nb Fb) as Na2.
  change (L "," ++ [nl]) with (T "," ++ [newline]) in H. change [nl] with [newline] in H.
  set (D := join [newline] (map (access_doc ge s) names)) in *. set (J := join (T "," ++ [newline]) names) in *.
  set (D2 := join [newline] (map (bits_doc ge s) names)) in *. set (J2 := join (T "," ++ [newline]) (map (bit_number s) names)) in *. clearbody D J D2 J2.
  change own_templ with (template_text own_pieces) in H. rewrite C36_filled in H; [|exact own_template|].
  2: { intros k I. cbn [holes own_pieces In] in I. repeat destruct I as [<-|I]; try contradiction; assumption. }
  apply Ok_inj in H. subst text. exists (own_lead ++ rs2), (own_lead2 ++ rs).
  split; [apply Forall_app; split; [apply comments_dec; vm_compute; reflexivity|exact C2]|]. split; [apply Forall_app; split; [apply comments_dec; vm_compute; reflexivity|exact C]|].
  cbn [filled own_pieces]. change (lookup (T "ACCESS_DOC") _) with D. change (lookup (T "NAMES") _) with J. change (lookup (T "BITS_DOC") _) with D2. change (lookup (T "BITS") _) with J2.
  repeat match goal with |- context [indented (column ?x) _] => generalize (column x); intro end.
  match goal with |- unindent true ?t = _ => replace t with (whole own_lead ++ (indented n D2 ++ newline :: (T "COMMS_BITMASK_BITS(" ++ newline :: (repeat " "%char 4 ++ (indented n0 J2 ++ newline :: (T ");" ++ newline :: newline ::
    (whole own_lead2 ++ (indented n1 D ++ newline :: (T "COMMS_BITMASK_BITS_ACCESS(" ++ newline :: (repeat " "%char 4 ++ (indented n2 J ++ newline :: (T ");" ++ newline :: []))))))))))))
    by (rewrite <- !app_assoc; reflexivity) end.
  rewrite rows_lit by (apply rows_dec; vm_compute; reflexivity).
  rewrite unindent_indented, R2, (row_is (T "COMMS_BITMASK_BITS(")) by (apply row_dec; reflexivity).
  rewrite unindent_blanks, unindent_indented, A2, (row_is (T ");")) by (apply row_dec; reflexivity).
  rewrite EnumTextFacts.unindent_nl, rows_lit by (apply rows_dec; vm_compute; reflexivity).
  rewrite unindent_indented, R, (row_is (T "COMMS_BITMASK_BITS_ACCESS(")) by (apply row_dec; reflexivity).
  rewrite unindent_blanks, unindent_indented, A, (row_is (T ");")) by (apply row_dec; reflexivity). cbn [unindent]. rewrite app_nil_r.
  unfold call_rows. rewrite !whole_app, <- !app_assoc. reflexivity.
Qed.
