(** Facts about FloatField.v. *)
From Verif.Model Require Import Base Common Xml Units Field FieldCommon IntField FloatField.
From Verif.Spec Require Import Texts Ints Versions HeaderSpec FloatSpec.
From Verif.Proofs Require Import BaseFacts CommonFacts IntFacts RangeFacts IntInv CaseFacts.
From Coq Require Import ZifyBool ZifyNat Permutation Sorting.Sorted.


Lemma ok_inj {A} (a b : A) : Ok a = Ok b -> a = b. Proof. congruence. Qed.
(** ** Doubles as integers in the order of parseCompareLess *)
Definition top : Z := 2 ^ 3000.
Lemma top_pos : 0 < top. Proof. apply Z.pow_pos_nonneg; lia. Qed.
Definition key (d : dbl) : Z := match d with DNaN => top + 1 | DInf true => - top | DInf false => top | DNum n => n end.
Lemma bounded_spec m e : bounded 53 1024 m e = true ->
  -1074 <= e <= 971 /\ Z.pos m < 2 ^ 53 /\ (-1074 < e -> 2 ^ 52 <= Z.pos m).
Proof.
  unfold bounded, canonical_mantissa, fexp, emin. intros H. apply andb_true_iff in H as [A B].
  apply Zeq_bool_eq in A. apply Z.leb_le in B.
  assert (D : forall q, 2 ^ (Z.pos (digits2_pos q) - 1) <= Z.pos q < 2 ^ Z.pos (digits2_pos q)).
  { clear. induction q as [q IH|q IH|]; cbn [digits2_pos]; [| |cbn; lia]; rewrite Pos2Z.inj_succ;
    replace (Z.succ (Z.pos (digits2_pos q)) - 1) with (Z.succ (Z.pos (digits2_pos q) - 1)) by lia; rewrite !Z.pow_succ_r by lia; lia. }
  specialize (D m). split; [lia|]. split.
  - apply Z.lt_le_trans with (2 ^ Z.pos (digits2_pos m)); [apply D|]. apply Z.pow_le_mono_r; lia.
  - intros E. apply Z.le_trans with (2 ^ (Z.pos (digits2_pos m) - 1)); [|apply D]. apply Z.pow_le_mono_r; lia.
Qed.
Lemma finite_bound s m e : binary64 (S754_finite s m e) -> - top < key (double_of (S754_finite s m e)) < top.
Proof.
  unfold binary64. cbn [valid_binary]. intros H. apply bounded_spec in H as (A & B & C). cbn [double_of key].
  assert (2 ^ 53 * 2 ^ (e + 1074) <= top).
  { unfold top. rewrite <- Z.pow_add_r by lia. apply Z.pow_le_mono_r; lia. }
  assert (0 < 2 ^ (e + 1074)) by (apply Z.pow_pos_nonneg; lia).
  destruct s; nia.
Qed.
Lemma key_bound x : binary64 x -> - top <= key (double_of x) <= top + 1.
Proof.
  intros H. pose proof top_pos. destruct x as [s|[]| |s m e]; cbn [double_of key]; try lia.
  pose proof (finite_bound _ _ _ H) as K. cbn [double_of key] in K. lia.
Qed.
Lemma pos_order m1 e1 m2 e2 : bounded 53 1024 m1 e1 = true -> bounded 53 1024 m2 e2 = true -> e1 < e2 ->
  Z.pos m1 * 2 ^ (e1 + 1074) < Z.pos m2 * 2 ^ (e2 + 1074).
Proof.
  intros A B E. apply bounded_spec in A as (A1 & A2 & _). apply bounded_spec in B as (B1 & B2 & B3).
  specialize (B3 ltac:(lia)). replace (e2 + 1074) with (Z.succ (e2 - e1 - 1) + (e1 + 1074)) by lia.
  rewrite (Z.pow_add_r 2 (Z.succ (e2 - e1 - 1)) (e1 + 1074)) by lia. rewrite Z.pow_succ_r by lia.
  assert (0 < 2 ^ (e1 + 1074)) by (apply Z.pow_pos_nonneg; lia).
  assert (0 < 2 ^ (e2 - e1 - 1)) by (apply Z.pow_pos_nonneg; lia).
  change (2 ^ 53) with (2 * 2 ^ 52) in A2. set (q := 2 ^ (e1 + 1074)) in *. set (r := 2 ^ (e2 - e1 - 1)) in *. set (w := 2 ^ 52) in *.
  assert (0 < w) by (unfold w; apply Z.pow_pos_nonneg; lia). clearbody w q r.
  rewrite Z.mul_assoc. apply Z.mul_lt_mono_pos_r; [lia|]. pose proof (Z.mul_le_mono_nonneg w (Z.pos m2) (2 * 1) (2 * r) ltac:(lia) B3 ltac:(lia) ltac:(lia)). lia.
Qed.
Lemma ltb_spec a b : binary64 a -> binary64 b ->
  SFltb a b = negb (is_nan a) && negb (is_nan b) && (key (double_of a) <? key (double_of b)).
Proof.
  intros Ha Hb. pose proof top_pos as TP.
  assert (Pp : forall m e, bounded 53 1024 m e = true -> 0 < Z.pos m * 2 ^ (e + 1074)).
  { intros m e H. apply bounded_spec in H as (H & _). apply Z.mul_pos_pos; [lia|apply Z.pow_pos_nonneg; lia]. }
  destruct a as [sa|sa| |sa ma ea], b as [sb|sb| |sb mb eb].
  all: try (cbn [is_nan negb andb]; rewrite ?andb_false_r; reflexivity).
  all: try (pose proof (finite_bound _ _ _ Ha) as Fa); try (pose proof (finite_bound _ _ _ Hb) as Fb); cbn [double_of key] in *.
  8: { clear Fa Fb. unfold binary64 in Ha, Hb.
 cbn [valid_binary] in Ha, Hb. pose proof (Pp _ _ Ha). pose proof (Pp _ _ Hb). unfold SFltb, SFcompare. cbn [double_of key is_nan negb andb].
    assert (Cm : forall m1 m2 e, bounded 53 1024 m1 e = true -> Pos.compare_cont Eq m1 m2 = (Z.pos m1 * 2 ^ (e + 1074) ?= Z.pos m2 * 2 ^ (e + 1074))).
    { intros m1 m2 e H'. apply bounded_spec in H' as (H' & _). rewrite <- (Zmult_compare_compat_r (Z.pos m1) (Z.pos m2)) by (apply Z.lt_gt, Z.pow_pos_nonneg; lia). reflexivity. }
    destruct sa, sb.
    + destruct (Z.compare_spec ea eb) as [->|E|E]; symmetry.
      * rewrite (Cm _ _ _ Ha). change (Z.neg ma) with (- Z.pos ma). change (Z.neg mb) with (- Z.pos mb).
        destruct (Z.compare_spec (Z.pos ma * 2 ^ (eb + 1074)) (Z.pos mb * 2 ^ (eb + 1074))); cbn [CompOpp]; [apply Z.ltb_ge; lia|apply Z.ltb_ge; lia|apply Z.ltb_lt; lia].
      * pose proof (pos_order _ _ _ _ Ha Hb E). apply Z.ltb_ge. change (Z.neg ma) with (- Z.pos ma). change (Z.neg mb) with (- Z.pos mb). lia.
      * pose proof (pos_order _ _ _ _ Hb Ha E). apply Z.ltb_lt. change (Z.neg ma) with (- Z.pos ma). change (Z.neg mb) with (- Z.pos mb). lia.
    + symmetry. apply Z.ltb_lt. change (Z.neg ma) with (- Z.pos ma). lia.
    + symmetry. apply Z.ltb_ge. change (Z.neg mb) with (- Z.pos mb). lia.
    + destruct (Z.compare_spec ea eb) as [->|E|E]; symmetry.
      * rewrite (Cm _ _ _ Ha).
        destruct (Z.compare_spec (Z.pos ma * 2 ^ (eb + 1074)) (Z.pos mb * 2 ^ (eb + 1074))); [apply Z.ltb_ge; lia|apply Z.ltb_lt; lia|apply Z.ltb_ge; lia].
      * pose proof (pos_order _ _ _ _ Ha Hb E). apply Z.ltb_lt. lia.
      * pose proof (pos_order _ _ _ _ Hb Ha E). apply Z.ltb_ge. lia. }
  all: unfold SFltb, SFcompare; cbn [is_nan negb andb double_of key]; symmetry.
  all: try (destruct sa); try (destruct sb).
  all: try (unfold binary64 in Ha; cbn [valid_binary] in Ha; pose proof (Pp _ _ Ha)); try (unfold binary64 in Hb; cbn [valid_binary] in Hb; pose proof (Pp _ _ Hb)).
  all: repeat match goal with |- context [Z.neg ?m] => change (Z.neg m) with (- Z.pos m) end.
  all: first [apply Z.ltb_lt; lia | apply Z.ltb_ge; lia].
Qed.
Lemma compare_less_spec a b : binary64 a -> binary64 b -> compare_less a b = (key (double_of a) <? key (double_of b)).
Proof.
  intros Ha Hb. pose proof (key_bound _ Ha) as Ka. pose proof (key_bound _ Hb) as Kb. pose proof top_pos.
  unfold compare_less. destruct (is_nan a) eqn:Na.
  { destruct a; try discriminate. cbn [double_of key]. symmetry. apply Z.ltb_ge. lia. }
  destruct (is_nan b) eqn:Nb.
  { destruct b; try discriminate. symmetry. apply Z.ltb_lt. cbn [double_of key].
    destruct a as [s|[]| |s m e]; try discriminate; cbn [double_of key]; try lia. pose proof (finite_bound _ _ _ Ha) as K. cbn [double_of key] in K. lia. }
  pose proof (ltb_spec _ _ Ha Hb) as S. rewrite Na, Nb in S. cbn [negb andb] in S.
  destruct a as [sa|sa| |sa ma ea], b as [sb|sb| |sb mb eb]; try discriminate; try exact S; clear S.
  all: try (destruct sa); try (destruct sb); cbn [double_of key] in *; symmetry.
  all: try (pose proof (finite_bound _ _ _ Ha) as Fa); try (pose proof (finite_bound _ _ _ Hb) as Fb); cbn [double_of key] in *.
  all: first [apply Z.ltb_lt; lia | apply Z.ltb_ge; lia].
Qed.
Opaque top.
Definition K (x : spec_float) : Z := key (double_of x).
Lemma K_bound x : binary64 x -> - top <= K x <= top + 1. Proof. apply key_bound. Qed.
Lemma K_nan x : binary64 x -> (is_nan x = true <-> K x = top + 1).
Proof.
  intros H. pose proof top_pos. unfold K. destruct x as [s|[]| |s m e]; cbn [is_nan double_of key]; try (split; [discriminate|lia]); [tauto|].
  pose proof (finite_bound _ _ _ H) as F. cbn [double_of key] in F. split; [discriminate|lia].
Qed.
Lemma K_special x : binary64 x -> (is_fp_special x = true <-> K x <= - top \/ top <= K x).
Proof.
  intros H. pose proof top_pos. unfold K, is_fp_special. destruct x as [s|[]| |s m e]; cbn [is_nan is_inf orb double_of key].
  - split; [discriminate|lia].
  - split; [lia|reflexivity].
  - split; [lia|reflexivity].
  - split; [lia|reflexivity].
  - pose proof (finite_bound _ _ _ H) as F. cbn [double_of key] in F. split; [discriminate|lia].
Qed.
Lemma ltb_K a b : binary64 a -> binary64 b -> (SFltb a b = true <-> K a < K b <= top).
Proof.
  intros Ha Hb. rewrite (ltb_spec _ _ Ha Hb), !andb_true_iff, !negb_true_iff, Z.ltb_lt, <- !not_true_iff_false, (K_nan _ Ha), (K_nan _ Hb).
  pose proof (K_bound _ Ha). pose proof (K_bound _ Hb). unfold K in *. lia.
Qed.
Lemma less_K a b : binary64 a -> binary64 b -> (compare_less a b = true <-> K a < K b).
Proof. intros Ha Hb. rewrite (compare_less_spec _ _ Ha Hb). apply Z.ltb_lt. Qed.
Lemma dle_K a b : binary64 a -> binary64 b -> (dle (double_of a) (double_of b) <-> K a <= K b <= top).
Proof.
  intros Ha Hb. pose proof top_pos. unfold K. destruct a as [sa|[]| |sa ma ea], b as [sb|[]| |sb mb eb]; cbn [double_of dle key].
  all: try (pose proof (finite_bound _ _ _ Ha) as Fa); try (pose proof (finite_bound _ _ _ Hb) as Fb); cbn [double_of key] in *; lia.
Qed.
Lemma nan_K a : binary64 a -> (double_of a = DNaN <-> K a = top + 1).
Proof. intros H. rewrite <- (K_nan _ H). destruct a; cbn; split; congruence. Qed.
Lemma num_K a n : binary64 a -> double_of a = DNum n -> - top < K a < top.
Proof. intros H E. pose proof top_pos. unfold K. destruct a as [s|s| |s m e]; try discriminate; [cbn; lia|]. apply (finite_bound _ _ _ H). Qed.
Lemma double_K a b : binary64 a -> binary64 b -> (double_of a = double_of b <-> K a = K b).
Proof.
  intros Ha Hb. pose proof top_pos. unfold K. split; [now intros ->|]. destruct a as [sa|[]| |sa ma ea], b as [sb|[]| |sb mb eb]; cbn [double_of key].
  all: try (pose proof (finite_bound _ _ _ Ha) as Fa); try (pose proof (finite_bound _ _ _ Hb) as Fb); cbn [double_of key] in *; intros E; try lia; first [reflexivity|apply (f_equal DNum); assumption].
Qed.

(** ** Ranges *)
Definition b64r (r : frange) : Prop := binary64 (fr_min r) /\ binary64 (fr_max r).
Lemma inside_K r x : b64r r -> binary64 x -> (inside (drange_of r) (double_of x) <->
  K (fr_min r) <= K x <= K (fr_max r) /\ K (fr_max r) <= top \/ K (fr_min r) = top + 1 /\ K (fr_max r) = top + 1 /\ K x = top + 1).
Proof.
  intros [Ha Hb] Hx. unfold inside, drange_of. cbn [dr_min dr_max]. rewrite (dle_K _ _ Ha Hx), (dle_K _ _ Hx Hb), (nan_K _ Ha), (nan_K _ Hb), (nan_K _ Hx). lia.
Qed.
Lemma sf_max_K a b : binary64 a -> binary64 b -> binary64 (sf_max a b) /\ K (sf_max a b) = (if (K a <? K b) && (K b <=? top) then K b else K a).
Proof.
  intros Ha Hb. unfold sf_max. destruct (SFltb a b) eqn:E.
  - apply ltb_K in E; auto. split; [exact Hb|]. replace (K a <? K b) with true by (symmetry; apply Z.ltb_lt; lia). replace (K b <=? top) with true by (symmetry; apply Z.leb_le; lia). reflexivity.
  - split; [exact Ha|]. destruct (Z.ltb_spec (K a) (K b)), (Z.leb_spec (K b) top); try reflexivity.
    assert (SFltb a b = true) by (apply ltb_K; auto; lia). congruence.
Qed.
Definition fvlt (a b : frange) : Prop := fr_since a < fr_since b \/ fr_since a = fr_since b /\ (fr_depr a < fr_depr b \/ fr_depr a = fr_depr b /\
  (K (fr_min a) < K (fr_min b) \/ K (fr_min a) = K (fr_min b) /\ K (fr_max a) < K (fr_max b))).
Definition fwlt (a b : frange) : Prop := K (fr_min a) < K (fr_min b) \/ K (fr_min a) = K (fr_min b) /\ (K (fr_max a) < K (fr_max b) \/
  K (fr_max a) = K (fr_max b) /\ (fr_since a < fr_since b \/ fr_since a = fr_since b /\ fr_depr a < fr_depr b)).
Lemma flt_version_spec a b : b64r a -> b64r b -> (flt_version a b = true <-> fvlt a b).
Proof.
  intros [A1 A2] [B1 B2]. unfold flt_version, fvlt. rewrite !compare_less_spec by assumption. fold (K (fr_min a)) (K (fr_min b)) (K (fr_max a)) (K (fr_max b)).
  destruct (Z.eqb_spec (fr_since a) (fr_since b)); cbn [negb]; [|lia]. destruct (Z.eqb_spec (fr_depr a) (fr_depr b)); cbn [negb]; [|lia].
  destruct (Z.ltb_spec (K (fr_min a)) (K (fr_min b))); [lia|]. destruct (Z.ltb_spec (K (fr_min b)) (K (fr_min a))); lia.
Qed.
Lemma flt_value_spec a b : b64r a -> b64r b -> (flt_value a b = true <-> fwlt a b).
Proof.
  intros [A1 A2] [B1 B2]. unfold flt_value, fwlt. rewrite !compare_less_spec by assumption. fold (K (fr_min a)) (K (fr_min b)) (K (fr_max a)) (K (fr_max b)).
  destruct (Z.ltb_spec (K (fr_min a)) (K (fr_min b))); [lia|]. destruct (Z.ltb_spec (K (fr_min b)) (K (fr_min a))); [lia|].
  destruct (Z.ltb_spec (K (fr_max a)) (K (fr_max b))); [lia|]. destruct (Z.ltb_spec (K (fr_max b)) (K (fr_max a))); [lia|].
  destruct (Z.eqb_spec (fr_since a) (fr_since b)); cbn [negb]; lia.
Qed.
Lemma fsorted_gen lt (R : frange -> frange -> Prop) l : (forall a b, b64r a -> b64r b -> (lt a b = true <-> R a b)) ->
  (forall a b, R a b -> ~ R b a) -> (forall a b c, ~ R b a -> ~ R c b -> ~ R c a) ->
  Forall b64r l -> StronglySorted (fun a b => ~ R b a) (isort lt l).
Proof.
  intros Sp As Tr H.
  assert (S : StronglySorted (fun a b => lt b a = false) (isort lt l)).
  { apply (sort_sorted _ b64r); auto.
    - intros a b Pa Pb E. apply not_true_is_false. rewrite Sp by assumption. apply Sp in E; auto.
    - intros a b c Pa Pb Pc. rewrite <- !not_true_iff_false, !Sp by assumption. apply Tr. }
  apply (sort_Forall lt) in H. eapply (SS_impl _ _ b64r); [|exact H|exact S].
  intros a b Pa Pb E X. apply Sp in X; auto. congruence.
Qed.
Definition fvle (a b : frange) : Prop := ~ fvlt b a.
Lemma fversion_sorted l : Forall b64r l -> StronglySorted fvle (isort flt_version l).
Proof. apply fsorted_gen; [apply flt_version_spec|unfold fvlt; lia|unfold fvlt; lia]. Qed.
Lemma fvalue_sorted l : Forall b64r l -> StronglySorted (fun a b => ~ fwlt b a) (isort flt_value l).
Proof. apply fsorted_gen; [apply flt_value_spec|unfold fwlt; lia|unfold fwlt; lia]. Qed.

Definition fcovers (r : frange) (x : spec_float) (w : Z) : Prop := inside (drange_of r) (double_of x) /\ fr_since r <= w < fr_depr r.
Definition fcovered (l : list frange) x w : Prop := exists r, In r l /\ fcovers r x w.
Lemma fcovered_cons r l v w : fcovered (r :: l) v w <-> fcovers r v w \/ fcovered l v w.
Proof.
  unfold fcovered. split.
  - intros (x & [<-|Hx] & H); eauto.
  - intros [H|(x & Hx & H)]; [exists r|exists x]; simpl; auto.
Qed.
(** the test of fmerge_into *)
Definition fstop (cur x : frange) : bool := negb (fr_since cur =? fr_since x) || negb (fr_depr cur =? fr_depr x) || is_fp_special (fr_max cur) ||
         is_fp_special (fr_min x) || compare_less (fr_max cur) (fr_min x).
Definition fjoin (cur x : frange) : frange := mkFRange (fr_min cur) (sf_max (fr_max cur) (fr_max x)) (fr_since cur) (fr_depr cur).
Lemma fmerge_cons cur x l : fmerge_into cur (x :: l) = if fstop cur x then cur :: fmerge_into x l else fmerge_into (fjoin cur x) l.
Proof. reflexivity. Qed.
Lemma fstop_false cur x : b64r cur -> b64r x -> fstop cur x = false ->
  fr_since cur = fr_since x /\ fr_depr cur = fr_depr x /\ - top < K (fr_max cur) < top /\ - top < K (fr_min x) < top /\ K (fr_min x) <= K (fr_max cur).
Proof.
  intros [A1 A2] [B1 B2]. unfold fstop. rewrite !orb_false_iff, !negb_false_iff, !Z.eqb_eq. intros ((((E1 & E2) & E3) & E4) & E5).
  apply not_true_iff_false in E3, E4, E5. rewrite (K_special _ A2) in E3. rewrite (K_special _ B1) in E4. rewrite (less_K _ _ A2 B1) in E5. lia.
Qed.
Lemma fstop_true cur x : b64r cur -> b64r x -> fstop cur x = true ->
  fr_since cur <> fr_since x \/ fr_depr cur <> fr_depr x \/ K (fr_max cur) <= - top \/ top <= K (fr_max cur) \/ K (fr_min x) <= - top \/ top <= K (fr_min x) \/
  K (fr_max cur) < K (fr_min x).
Proof.
  intros [A1 A2] [B1 B2]. unfold fstop. rewrite !orb_true_iff, !negb_true_iff, !Z.eqb_neq, (K_special _ A2), (K_special _ B1), (less_K _ _ A2 B1). lia.
Qed.
Lemma fjoin_b64 cur x : b64r cur -> b64r x -> b64r (fjoin cur x).
Proof. intros [A1 A2] [B1 B2]. split; [exact A1|]. apply sf_max_K; assumption. Qed.
Lemma fjoin_sorted cur x l : b64r cur -> b64r x -> StronglySorted fvle (cur :: x :: l) -> fstop cur x = false -> StronglySorted fvle (fjoin cur x :: l).
Proof.
  intros Bc Bx S E. apply fstop_false in E; auto. inversion S as [|? ? S' F]; subst. inversion S' as [|? ? S'' F']; subst. inversion F as [|? ? Fx Fl]; subst.
  constructor; [exact S''|]. rewrite Forall_forall in *. intros y Hy. specialize (Fl y Hy). specialize (F' y Hy). unfold fvle, fvlt in *.
  destruct Bc, Bx. cbn [fjoin fr_min fr_max fr_since fr_depr]. rewrite (proj2 (sf_max_K (fr_max cur) (fr_max x) ltac:(assumption) ltac:(assumption))).
  destruct (Z.ltb_spec (K (fr_max cur)) (K (fr_max x))), (Z.leb_spec (K (fr_max x)) top); cbn [andb]; lia.
Qed.
Lemma fmerge_covered l : forall cur, Forall b64r (cur :: l) -> StronglySorted fvle (cur :: l) ->
  forall x w, binary64 x -> (fcovered (fmerge_into cur l) x w <-> fcovered (cur :: l) x w).
Proof.
  induction l as [|y l IH]; intros cur B S v w Hv; [reflexivity|].
  inversion B as [|? ? Bc B']; subst. inversion B' as [|? ? By Bl]; subst. inversion S as [|? ? S' F]; subst.
  rewrite fmerge_cons. destruct (fstop cur y) eqn:E.
  - rewrite fcovered_cons, (IH y B' S' v w Hv), (fcovered_cons cur). tauto.
  - rewrite (IH (fjoin cur y)); [|constructor; [apply fjoin_b64; assumption|exact Bl]|apply fjoin_sorted; assumption|exact Hv].
    rewrite !fcovered_cons. apply fstop_false in E; auto.
    assert (fcovers (fjoin cur y) v w <-> fcovers cur v w \/ fcovers y v w); [|tauto].
    unfold fcovers. rewrite !inside_K by (auto using fjoin_b64). inversion F as [|? ? Fx Fl]; subst. unfold fvle, fvlt in Fx.
    destruct Bc as [C1 C2], By as [D1 D2]. cbn [fjoin fr_min fr_max fr_since fr_depr]. rewrite (proj2 (sf_max_K (fr_max cur) (fr_max y) C2 D2)).
    pose proof (K_bound _ Hv).
    destruct (Z.ltb_spec (K (fr_max cur)) (K (fr_max y))), (Z.leb_spec (K (fr_max y)) top); cbn [andb]; lia.
Qed.
Lemma fmerge_b64 l : forall cur, Forall b64r (cur :: l) -> Forall b64r (fmerge_into cur l).
Proof.
  induction l as [|y l IH]; intros cur B; [exact B|]. inversion B as [|? ? Bc B']; subst. inversion B' as [|? ? By Bl]; subst.
  rewrite fmerge_cons. destruct (fstop cur y); [constructor; auto|]. apply IH. constructor; [apply fjoin_b64; assumption|exact Bl].
Qed.
Lemma fmerge_keys l : forall cur, forall y, In y (fmerge_into cur l) ->
  exists z, In z (cur :: l) /\ fr_since y = fr_since z /\ fr_depr y = fr_depr z /\ fr_min y = fr_min z.
Proof.
  induction l as [|x l IH]; intros cur y Hy; [exists y; auto|]. rewrite fmerge_cons in Hy. destruct (fstop cur x).
  - destruct Hy as [<-|Hy]; [exists cur; cbn; auto|]. destruct (IH _ _ Hy) as (z & Hz & R). exists z. split; [right; exact Hz|exact R].
  - destruct (IH _ _ Hy) as (z & [<-|Hz] & R); [exists cur; cbn in *; auto|]. exists z. cbn. auto.
Qed.
Definition finite_range (r : frange) : Prop := - top < K (fr_min r) < top /\ - top < K (fr_max r) < top.
Definition fapart (a b : frange) : Prop := finite_range a -> finite_range b -> fr_since a = fr_since b -> fr_depr a = fr_depr b -> K (fr_max a) < K (fr_min b).
Lemma fmerge_apart l : forall cur, Forall b64r (cur :: l) -> StronglySorted fvle (cur :: l) -> StronglySorted fapart (fmerge_into cur l).
Proof.
  induction l as [|x l IH]; intros cur B S; [repeat constructor|].
  inversion B as [|? ? Bc B']; subst. inversion B' as [|? ? Bx Bl]; subst. inversion S as [|? ? S' F]; subst.
  rewrite fmerge_cons. destruct (fstop cur x) eqn:E.
  - constructor; [apply IH; assumption|]. apply Forall_forall. intros y Hy. destruct (fmerge_keys _ _ _ Hy) as (z & Hz & K1 & K2 & K3).
    apply fstop_true in E; auto. intros [A1 A2] [B1 B2] E1 E2.
    assert (Hxz : z = x \/ fvle x z). { destruct Hz as [Hz|Hz]; [auto|right]. inversion S' as [|? ? ? F']; subst. rewrite Forall_forall in F'; auto. }
    inversion F as [|? ? Fx Fl]; subst. rewrite K3 in *. destruct Hxz as [->|Hxz]; unfold fvle, fvlt in *; lia.
  - apply IH; [constructor; [apply fjoin_b64; assumption|exact Bl]|apply fjoin_sorted; assumption].
Qed.
Definition fseparate (a b : frange) : Prop := finite_range a -> finite_range b -> fr_since a = fr_since b -> fr_depr a = fr_depr b ->
  K (fr_max a) < K (fr_min b) \/ K (fr_max b) < K (fr_min a).
Lemma fnormalise_facts l : Forall b64r l ->
  Forall b64r (fnormalise_ranges l) /\ StronglySorted (fun a b => ~ fwlt b a) (fnormalise_ranges l) /\ ForallOrdPairs fseparate (fnormalise_ranges l) /\
  forall x w, binary64 x -> (fcovered (fnormalise_ranges l) x w <-> fcovered l x w).
Proof.
  intros B. unfold fnormalise_ranges. assert (B1 := proj2 (sort_Forall flt_version b64r l) B). pose proof (fversion_sorted l B) as S.
  assert (P : forall x w, fcovered (isort flt_version l) x w <-> fcovered l x w).
  { intros x w. unfold fcovered. split; intros (r & Hr & C); exists r; (split; [|exact C]); apply (sort_In flt_version l r); exact Hr. }
  set (m := fmerge_ranges (isort flt_version l)).
  assert (M : Forall b64r m /\ StronglySorted fapart m /\ forall x w, binary64 x -> (fcovered m x w <-> fcovered l x w)).
  { unfold m, fmerge_ranges. destruct (isort flt_version l) as [|x l'].
    - split; [constructor|]. split; [constructor|]. intros y w _. apply P.
    - split; [apply fmerge_b64; exact B1|]. split; [apply fmerge_apart; assumption|]. intros y w Hy. rewrite <- P. apply fmerge_covered; assumption. }
  clearbody m. destruct M as (M1 & M2 & M3). split; [apply (sort_Forall flt_value); exact M1|]. split; [apply fvalue_sorted; exact M1|]. split.
  - apply (FOP_perm fseparate) with (l := m).
    + unfold fseparate. intros a b H F1 F2 E1 E2. destruct (H F2 F1 ltac:(congruence) ltac:(congruence)); auto.
    + symmetry. apply sort_perm.
    + clear M1 M3. induction M2 as [|a l' S' IH F]; constructor; [|exact IH]. eapply Forall_impl; [|exact F]. unfold fapart, fseparate. intros; left; auto.
  - intros x w Hx. rewrite <- M3 by exact Hx. unfold fcovered. split; intros (r & Hr & C); exists r; (split; [|exact C]); apply (sort_In flt_value m r); exact Hr.
Qed.

(** ** Values *)
Lemma limits_b64 t : binary64 (f_max_value t) /\ binary64 (f_min_value t). Proof. destruct t; split; vm_compute; reflexivity. Qed.
Lemma double_limits t : double_of (f_max_value t) = DNum (float_limit t) /\ double_of (f_min_value t) = DNum (- float_limit t).
Proof. destruct t; split; apply (f_equal DNum); vm_compute; reflexivity. Qed.
Lemma K_limits t : K (f_max_value t) = float_limit t /\ K (f_min_value t) = - float_limit t.
Proof. unfold K. destruct (double_limits t) as [-> ->]. split; reflexivity. Qed.
Lemma limit_top t : 0 < float_limit t < top.
Proof.
  destruct (K_limits t) as [E _]. destruct (limits_b64 t) as [B _]. destruct (double_limits t) as [D _]. pose proof (num_K _ _ B D) as H. rewrite E in H.
  split; [|lia]. destruct t; vm_compute; reflexivity.
Qed.
Lemma in_type_spec t v : binary64 v -> (float_in_type t v = true <-> fits t (double_of v)).
Proof.
  intros H. destruct (limits_b64 t) as [B1 B2]. destruct (K_limits t) as [L1 L2]. pose proof (limit_top t) as LT. unfold float_in_type.
  rewrite orb_true_iff, negb_true_iff, orb_false_iff, <- !not_true_iff_false, (ltb_K _ _ B1 H), (ltb_K _ _ H B2), (K_special _ H), L1, L2.
  unfold K. destruct v as [s|[]| |s m e]; cbn [double_of fits key]; try (pose proof (finite_bound _ _ _ H) as FB; cbn [double_of key] in FB); lia.
Qed.
Lemma fp_special_spec s v : fp_special (to_lower s) = Some v <-> special_text s (double_of v).
Proof.
  unfold fp_special. assert (Cn : caseless s (T "nan") <-> to_lower s = L "nan") by (apply caseless_iff; reflexivity).
  assert (Ci : caseless s (T "inf") <-> to_lower s = L "inf") by (apply caseless_iff; reflexivity).
  assert (Cm : caseless s (T "-inf") <-> to_lower s = L "-inf") by (apply caseless_iff; reflexivity).
  assert (I : special_text s (double_of v) <-> (to_lower s = L "nan" /\ v = S754_nan) \/ (to_lower s = L "inf" /\ v = S754_infinity false) \/ (to_lower s = L "-inf" /\ v = S754_infinity true)).
  { split.
    - remember (double_of v) as d. intros H. destruct H as [s H|s H|s H]; destruct v as [|b| |]; try discriminate; try (injection Heqd as <-); tauto.
    - intros [[A ->]|[[A ->]|[A ->]]]; cbn [double_of]; constructor; tauto. }
  rewrite I. clear I Cn Ci Cm. set (l := to_lower s). clearbody l.
  destruct (str_eqb l (L "nan")) eqn:E1; [apply str_eqb_eq in E1; subst; split; [intros [= <-]; auto|intros [[_ ->]|[[X _]|[X _]]]; [reflexivity|discriminate|discriminate]]|].
  apply str_eqb_neq in E1.
  destruct (str_eqb l (L "inf")) eqn:E2; [apply str_eqb_eq in E2; subst; split; [intros [= <-]; auto|intros [[X _]|[[_ ->]|[X _]]]; [contradiction|reflexivity|discriminate]]|].
  apply str_eqb_neq in E2.
  destruct (str_eqb l (L "-inf")) eqn:E3; [apply str_eqb_eq in E3; subst; split; [intros [= <-]; auto|intros [[X _]|[[X _]|[_ ->]]]; [contradiction|contradiction|reflexivity]]|].
  apply str_eqb_neq in E3. split; [discriminate|tauto].
Qed.
Lemma special_text_b64 s d : special_text s d -> exists v, double_of v = d /\ binary64 v /\ fp_special (to_lower s) = Some v.
Proof.
  intros H. assert (exists v, double_of v = d /\ binary64 v) as (v & E & B).
  { destruct H; [exists S754_nan|exists (S754_infinity false)|exists (S754_infinity true)]; split; reflexivity. }
  exists v. split; [exact E|]. split; [exact B|]. apply fp_special_spec. rewrite E. exact H.
Qed.
Definition fsp_ok (t : float_type) (x : str * fspecial) : Prop :=
  parseIsValidName (fst x) = true /\ binary64 (fs_value (snd x)) /\ fits t (double_of (fs_value (snd x))).
Definition fsps_ok (t : float_type) (l : list (str * fspecial)) : Prop := NoDup (map fst l) /\ Forall (fsp_ok t) l.
Lemma fvalues_keys l : map fst (fvalues l) = map fst l. Proof. unfold fvalues. rewrite map_map. reflexivity. Qed.
Lemma no_fp (allow : bool) s : allow && (match fp_special (to_lower s) with Some _ => true | None => false end) = false ->
  (allow = true -> forall d, ~ special_text s d) /\ (if allow then fp_special (to_lower s) else None) = None.
Proof.
  destruct allow; cbn [andb]; [|intros _; split; [discriminate|reflexivity]].
  destruct (fp_special (to_lower s)) eqn:E; [discriminate|]. intros _. split; [|reflexivity]. intros _ d H. destruct (special_text_b64 _ _ H) as (v & _ & _ & X). congruence.
Qed.
Lemma float_text_ok e t sp allow s v : fsps_ok t sp -> float_str_to_value e sp s allow = Some v -> float_text e (fvalues sp) allow s v.
Proof.
  intros [N F] H. unfold float_str_to_value in H. destruct (allow && _) eqn:A.
  - apply andb_true_iff in A as [-> A]. unfold str_to_double in H. destruct (fp_special (to_lower s)) eqn:E; [|discriminate]. injection H as ->.
    apply ft_fp; [reflexivity|]. apply fp_special_spec. exact E.
  - apply no_fp in A as [A A']. destruct (if parseIsValidName s then assoc s sp else None) as [x|] eqn:E.
    + injection H as <-. destruct (parseIsValidName s) eqn:En; [|discriminate]. apply ft_name; [exact A|apply parseIsValidName_spec; exact En|].
      apply assoc_In in E. apply (in_map (fun x => (fst x, fs_value (snd x)))) in E. exact E.
    + assert (Nk : ~ In s (map fst (fvalues sp))).
      { rewrite fvalues_keys. destruct (parseIsValidName s) eqn:En; [apply assoc_None; exact E|].
        intros I. apply in_map_iff in I as (y & <- & Iy). rewrite Forall_forall in F. destruct (F y Iy). congruence. }
      destruct (parseIsValidRefName s) eqn:Er.
      * apply ft_ref; auto. apply ref_text_iff; exact Er.
      * unfold str_to_double in H. rewrite A' in H. apply ft_number; auto. rewrite ref_text_iff; congruence.
Qed.
Lemma float_text_conv e t sp allow s v : fsps_ok t sp -> float_text e (fvalues sp) allow s v -> float_str_to_value e sp s allow = Some v.
Proof.
  intros [N F] H. unfold float_str_to_value.
  assert (Z : (allow = true -> forall d, ~ special_text s d) -> allow && (match fp_special (to_lower s) with Some _ => true | None => false end) = false).
  { intros X. destruct allow; [|reflexivity]. destruct (fp_special (to_lower s)) as [w|] eqn:E; [|reflexivity]. apply fp_special_spec in E. destruct (X eq_refl _ E). }
  destruct H as [v A S|v A I E|v A Nk R E|v A R E].
  - apply fp_special_spec in S. rewrite A, S. cbn [andb]. unfold str_to_double. rewrite S. reflexivity.
  - rewrite (Z A). apply parseIsValidName_spec in I. rewrite I. unfold fvalues in E. apply in_map_iff in E as ([k x] & E1 & E2). cbn in E1. injection E1 as -> <-.
    rewrite (NoDup_assoc _ _ _ N E2). reflexivity.
  - rewrite (Z A). rewrite fvalues_keys in Nk. apply assoc_None in Nk. rewrite Nk.
    replace (if parseIsValidName s then None else None) with (@None fspecial) by (destruct (parseIsValidName s); reflexivity).
    apply ref_text_iff in R. rewrite R. exact E.
  - pose proof (Z A) as Zf. rewrite Zf. rewrite ref_text_iff in R. apply not_true_is_false in R. destruct (parseIsValidName s) eqn:En; [apply name_is_ref in En; congruence|].
    rewrite R. unfold str_to_double. apply no_fp in Zf as [_ ->]. exact E.
Qed.
Lemma float_value_b64 e t sp allow s v : env_fp_ok e -> fsps_ok t sp -> float_str_to_value e sp s allow = Some v -> binary64 v.
Proof.
  intros [E1 E2] S H. pose proof (float_text_ok _ _ _ _ _ _ S H) as X. destruct X as [v A B|v A I E|v A Nk R E|v A R E]; [|destruct S as [_ F]|eauto|eauto].
  - remember (double_of v) as d. destruct B; destruct v; try discriminate; reflexivity.
  - unfold fvalues in E. apply in_map_iff in E as (x & E & Hx). injection E as <- <-. rewrite Forall_forall in F. apply (F x Hx).
Qed.

(** ** Special values *)
Lemma float_special_ok e t nonU sd dp sps seen nan n sps' seen' nan' : env_fp_ok e -> fsps_ok t sps -> Forall binary64 seen ->
  float_special e t nonU sd dp (sps, seen, nan) n = Ok (sps', seen', nan') ->
  exists x, sps' = sps ++ [x] /\ fsps_ok t sps' /\ (dp <= never -> fspecial_element e t sd dp sps n x) /\ Forall binary64 seen' /\
    (nonU = false -> K (fs_value (snd x)) = top + 1 /\ nan = false /\ nan' = true /\ seen' = seen \/
       K (fs_value (snd x)) <> top + 1 /\ nan' = nan /\ seen' = fs_value (snd x) :: seen /\ ~ In (K (fs_value (snd x))) (map K seen)).
Proof.
  intros He Hs Hse H. unfold float_special in H.
  apply bind_Ok in H as (p & Hp & H). apply bind_Ok in H as ([] & Hsp & H).
  apply bind_Ok in H as ([] & Hn & H). apply guard_Ok in Hn.
  apply bind_Ok in H as ([] & Hk & H). apply guard_Ok in Hk.
  apply bind_Ok in H as (v & Hv & H). apply of_opt_Ok in Hv.
  apply bind_Ok in H as ([seen1 nan1] & Hu & H).
  apply bind_Ok in H as ([] & Hl & H). apply guard_Ok in Hl.
  apply bind_Ok in H as ([s d] & Hver & H).
  unfold single_props in Hsp. apply bind_Ok in Hsp as (us & Hsp & _).
  assert (Hname : exists v, find_prop p (L "name") = Some v).
  { apply find_of_count. apply mapM_Forall2 in Hsp. inversion Hsp as [|? [] ? ? A]. exact A. }
  assert (Hval : exists v, find_prop p (L "val") = Some v).
  { apply find_of_count. apply mapM_Forall2 in Hsp. inversion Hsp as [|? [] ? ? A B]. inversion B as [|? [] ? ? C]. exact C. }
  destruct Hname as [name Ename], Hval as [val Eval].
  unfold get_prop in *. rewrite Ename, Eval in *.
  assert (Hnk : ~ In name (map fst sps)) by (intros I; apply has_key_iff in I; rewrite I in Hk; discriminate).
  assert (Bv : binary64 v) by (eapply float_value_b64; eassumption).
  apply ok_inj in H. apply pair_equal_spec in H as [H <-]. apply pair_equal_spec in H as [<- <-].
  eexists (name, mkFSpecial v s d _ _). split; [reflexivity|]. split; [|split].
  - destruct Hs as [N F]. split.
    + rewrite map_app. cbn [map fst]. apply NoDup_snoc; auto.
    + apply Forall_app. split; [exact F|]. constructor; [|constructor]. split; [exact Hn|]. split; [exact Bv|]. apply in_type_spec; assumption.
  - intros Hd. exists p, val. cbn [fst snd fs_value fs_since fs_depr].
    apply versions_spec in Hver as (V1 & V2 & V3); [|exact Hd].
    split; [exact Hp|]. split; [exact Ename|]. split; [apply parseIsValidName_spec; exact Hn|].
    split; [exact Hnk|]. split; [exact Eval|]. split; [eapply float_text_ok; eassumption|]. auto.
  - cbn [fst snd fs_value]. destruct nonU; [injection Hu as <- <-; split; [exact Hse|discriminate]|].
    destruct (is_nan v) eqn:En.
    + destruct nan; [discriminate|]. injection Hu as <- <-. split; [exact Hse|]. intros _. left. apply (K_nan _ Bv) in En. auto.
    + destruct (existsb _ seen) eqn:Ex; [discriminate|]. injection Hu as <- <-. split; [constructor; assumption|]. intros _. right.
      assert (Kn : K v <> top + 1) by (rewrite <- (K_nan _ Bv); congruence). split; [exact Kn|]. split; [reflexivity|]. split; [reflexivity|].
      intros I. apply in_map_iff in I as (y & Ey & Hy). rewrite Forall_forall in Hse. specialize (Hse _ Hy).
      assert (X : existsb (fun x => negb (SFltb x v) && negb (SFltb v x)) seen = true).
      { apply existsb_exists. exists y. split; [exact Hy|]. rewrite andb_true_iff, !negb_true_iff, <- !not_true_iff_false, (ltb_K _ _ Hse Bv), (ltb_K _ _ Bv Hse). lia. }
      congruence.
Qed.
Definition kvals (l : list (str * fspecial)) : list Z := map (fun x => K (fs_value (snd x))) l.
Lemma fspecials_fold e t nonU sd dp ns : env_fp_ok e -> forall sps seen nan sps' seen' nan', fsps_ok t sps -> Forall binary64 seen ->
  foldM (float_special e t nonU sd dp) ns (sps, seen, nan) = Ok (sps', seen', nan') ->
  exists new, sps' = sps ++ new /\ fsps_ok t sps' /\ (dp <= never -> fspecial_elements e t sd dp sps ns sps') /\
    (nonU = false -> NoDup (map K seen) -> ~ In (top + 1) (map K seen) ->
     NoDup (map K seen') /\ ~ In (top + 1) (map K seen') /\ Permutation ((if nan' then [top + 1] else []) ++ map K seen') ((if nan then [top + 1] else []) ++ kvals new ++ map K seen)).
Proof.
  intros He. induction ns as [|n ns IH]; intros sps seen nan sps' seen' nan' Hs Hse H; cbn [foldM] in H.
  - apply ok_inj in H. apply pair_equal_spec in H as [H <-]. apply pair_equal_spec in H as [<- <-]. exists []. rewrite app_nil_r. split; [reflexivity|]. split; [exact Hs|]. split; [constructor|]. auto.
  - apply bind_Ok in H as ([[sps1 seen1] nan1] & H1 & H).
    destruct (float_special_ok _ _ _ _ _ _ _ _ _ _ _ _ He Hs Hse H1) as (x & E1 & S1 & El & B1 & U1).
    destruct (IH _ _ _ _ _ _ S1 B1 H) as (new & E & S2 & Els & U).
    exists (x :: new). split; [rewrite E, E1, <- app_assoc; reflexivity|]. split; [exact S2|]. split.
    + intros Hd. econstructor; [apply El, Hd|]. rewrite <- E1. apply Els, Hd.
    + intros Nu ND NI. cbn [kvals map]. fold (kvals new). destruct (U1 Nu) as [(Kx & En & En' & Es)|(Kx & En & Es & NI')].
      * subst nan nan1 seen1. destruct (U Nu ND NI) as (A & B & P). split; [exact A|]. split; [exact B|]. rewrite P, Kx. reflexivity.
      * assert (ND1 : NoDup (map K seen1)) by (rewrite Es; cbn [map]; constructor; assumption).
        assert (NI1 : ~ In (top + 1) (map K seen1)) by (rewrite Es; cbn [map]; intros [X|X]; [congruence|contradiction]).
        destruct (U Nu ND1 NI1) as (A & B & P). split; [exact A|]. split; [exact B|]. rewrite P, En, Es. cbn [map]. apply Permutation_app_head.
        symmetry. apply Permutation_middle.
Qed.

(** ** Written ranges *)
Definition pname (r : frange_prop) : string :=
  match r with FFullRange => "validFullRange" | FRangeP ValidRange => "validRange" | FRangeP ValidValue => "validValue"
  | FRangeP ValidMin => "validMin" | FRangeP ValidMax => "validMax" end.
Lemma pname_spec r : frange_prop_name r = L (pname r). Proof. destruct r as [|[]]; reflexivity. Qed.
Lemma not_dlt a b : binary64 a -> binary64 b -> (~ dlt (double_of a) (double_of b) <-> SFltb a b = false).
Proof.
  intros Ha Hb. unfold dlt. rewrite (dle_K _ _ Ha Hb), (dle_K _ _ Hb Ha), <- not_true_iff_false, (ltb_K _ _ Ha Hb).
  pose proof (K_bound _ Ha). lia.
Qed.
Lemma frange_stated e t sp r s lo hi : env_fp_ok e -> fsps_ok t sp -> float_range_prop e t sp r s = Ok (Some (lo, hi)) ->
  fstated e t (fvalues sp) (pname r) s (double_of lo) (double_of hi) /\ binary64 lo /\ binary64 hi.
Proof.
  intros He Hs H. destruct (double_limits t) as [D1 D2]. destruct (limits_b64 t) as [B1 B2]. destruct r as [|[]]; unfold float_range_prop in H; cbn [pname].
  - apply bind_Ok in H as (b & Hb & H). apply of_opt_Ok in Hb. destruct b; [|discriminate]. apply ok_inj in H. injection H as <- <-. rewrite D1, D2.
    split; [|auto]. constructor. apply bool_text_spec. exact Hb.
  - apply bind_Ok in H as ([a b] & Hr & H). apply of_opt_Ok in Hr. apply bind_Ok in H as (mn & Hmn & H). apply of_opt_Ok in Hmn.
    apply bind_Ok in H as (mx & Hmx & H). apply of_opt_Ok in Hmx. destruct (SFltb mx mn) eqn:E; [discriminate|]. apply ok_inj in H. injection H as <- <-.
    assert (binary64 mn) by (eapply float_value_b64; eassumption). assert (binary64 mx) by (eapply float_value_b64; eassumption).
    split; [|auto]. econstructor; [apply parseRange_spec; exact Hr|eapply float_text_ok; eassumption|eapply float_text_ok; eassumption|]. apply not_dlt; assumption.
  - apply bind_Ok in H as (v & Hv & H). apply bind_Ok in Hv as (w & Hw & Hv). apply of_opt_Ok in Hw. apply bind_Ok in Hv as ([] & _ & Hv). apply ok_inj in Hv. subst w.
    apply ok_inj in H. injection H as <- <-. assert (binary64 v) by (eapply float_value_b64; eassumption). split; [|auto]. constructor. eapply float_text_ok; eassumption.
  - apply bind_Ok in H as (v & Hv & H). apply bind_Ok in Hv as (w & Hw & Hv). apply of_opt_Ok in Hw. apply bind_Ok in Hv as ([] & _ & Hv). apply ok_inj in Hv. subst w.
    apply ok_inj in H. injection H as <- <-. assert (binary64 v) by (eapply float_value_b64; eassumption). rewrite D1. split; [|auto]. constructor. eapply float_text_ok; eassumption.
  - apply bind_Ok in H as (v & Hv & H). apply bind_Ok in Hv as (w & Hw & Hv). apply of_opt_Ok in Hw. apply bind_Ok in Hv as ([] & _ & Hv). apply ok_inj in Hv. subst w.
    apply ok_inj in H. injection H as <- <-. assert (binary64 v) by (eapply float_value_b64; eassumption). rewrite D2. split; [|auto]. constructor. eapply float_text_ok; eassumption.
Qed.
Lemma frange_stated_conv e t sp r s lo hi x : fsps_ok t sp -> fstated e t (fvalues sp) (pname r) s lo hi -> float_range_prop e t sp r s = Ok x ->
  exists a b, x = Some (a, b) /\ double_of a = lo /\ double_of b = hi.
Proof.
  intros Hs H E. destruct (double_limits t) as [D1 D2].
  destruct r as [|[]]; cbn [pname] in H; unfold float_range_prop in E; inversion H; subst.
  - match goal with B : bool_text _ _ |- _ => apply bool_text_spec in B; rewrite B in E end. cbn [of_opt bind] in E. apply ok_inj in E. subst x. eauto.
  - match goal with R : range_text _ _ _ |- _ => apply parseRange_spec in R; rewrite R in E end. cbn [of_opt bind] in E.
    repeat match goal with F : float_text _ _ _ _ _ |- _ => apply (float_text_conv e t) in F; [|exact Hs]; rewrite F in E; cbn [of_opt bind] in E end.
    match type of E with (if ?b then _ else _) = _ => destruct b; [discriminate|] end. apply ok_inj in E. subst x. eauto.
  - match goal with F : float_text _ _ _ _ _ |- _ => apply (float_text_conv e t) in F; [|exact Hs]; rewrite F in E end. cbn [of_opt bind] in E.
    apply bind_Ok in E as (y & Hy & E). apply bind_Ok in Hy as ([] & _ & Hy). apply ok_inj in Hy. apply ok_inj in E. subst. eauto.
  - match goal with F : float_text _ _ _ _ _ |- _ => apply (float_text_conv e t) in F; [|exact Hs]; rewrite F in E end. cbn [of_opt bind] in E.
    apply bind_Ok in E as (y & Hy & E). apply bind_Ok in Hy as ([] & _ & Hy). apply ok_inj in Hy. apply ok_inj in E. subst. eauto.
  - match goal with F : float_text _ _ _ _ _ |- _ => apply (float_text_conv e t) in F; [|exact Hs]; rewrite F in E end. cbn [of_opt bind] in E.
    apply bind_Ok in E as (y & Hy & E). apply bind_Ok in Hy as ([] & _ & Hy). apply ok_inj in Hy. apply ok_inj in E. subst. eauto.
Qed.
Definition fattr e t sp sd dp n (r : frange_prop) (d : drange) : Prop := exists txt lo hi,
  find_prop (parseNodeProps n) (L (pname r)) = Some txt /\ fstated e t (fvalues sp) (pname r) txt lo hi /\ d = mkDR lo hi sd dp.
Definition fchild e t sp sd dp n (r : frange_prop) (d : drange) : Prop := exists ch txt lo hi sv dv q,
  In ch (n_children n) /\ is_elem ch = true /\ n_name ch = L (pname r) /\ parseNodeValue ch false = Ok txt /\
  fstated e t (fvalues sp) (pname r) txt lo hi /\
  parseChildrenAsProps ch [L "sinceVersion"; L "deprecated"] true (parseNodeProps ch) = Ok q /\
  version_text (find_prop q (L "sinceVersion")) sd sv /\ version_text (find_prop q (L "deprecated")) dp dv /\
  consistent_versions (e_version e) sd dp sv dv /\ d = mkDR lo hi sv dv.
Lemma franges_of_prop e t sp sd dp n p r l : env_fp_ok e -> fsps_ok t sp -> dp <= never ->
  float_ranges_of_prop e t sp sd dp n p r = Ok l ->
  Forall b64r l /\ forall d, (exists x, In x l /\ drange_of x = d) <-> fattr e t sp sd dp n r d \/ fchild e t sp sd dp n r d.
Proof.
  intros He Hs Hd H. unfold float_ranges_of_prop in H. rewrite !pname_spec in H. apply bind_Ok in H as ([] & _ & H).
  apply bind_Ok in H as (a & Ha & H). apply bind_Ok in H as (cs & Hc & H). apply ok_inj in H. subst l.
  assert (HA : Forall b64r a /\ forall d, (exists x, In x a /\ drange_of x = d) <-> fattr e t sp sd dp n r d).
  { unfold fattr. destruct (find_prop (parseNodeProps n) (L (pname r))) as [s|].
    - apply bind_Ok in Ha as (x & Hx & Ha). apply ok_inj in Ha. subst a. destruct x as [[lo hi]|].
      + destruct (frange_stated _ _ _ _ _ _ _ He Hs Hx) as (St & B1 & B2). split; [repeat constructor; assumption|]. intros d. split.
        * intros (x & [<-|[]] & <-). exists s, (double_of lo), (double_of hi). auto.
        * intros (y & l & h & E & St' & ->). injection E as <-. destruct (frange_stated_conv _ _ _ _ _ _ _ _ Hs St' Hx) as (a & b & E & <- & <-). injection E as <- <-.
          eexists. split; [left; reflexivity|]. reflexivity.
      + split; [constructor|]. intros d. split; [intros (x & [] & _)|]. intros (y & l & h & E & St' & ->). injection E as <-.
        destruct (frange_stated_conv _ _ _ _ _ _ _ _ Hs St' Hx) as (a & b & E & _). discriminate.
    - apply ok_inj in Ha. subst a. split; [constructor|]. intros d. split; [intros (x & [] & _)|]. intros (y & l & h & E & _). discriminate. }
  assert (HC : Forall b64r (concat cs) /\ forall d, (exists x, In x (concat cs) /\ drange_of x = d) <-> fchild e t sp sd dp n r d).
  { assert (Hcs : forall x, In x (concat cs) -> b64r x /\ fchild e t sp sd dp n r (drange_of x)).
    { intros x Hx. apply in_concat in Hx as (l & Hl & Hx). destruct (mapM_In _ _ _ _ Hc Hl) as (ch & Hch & E).
      apply children_named in Hch as (C1 & C2 & C3). apply bind_Ok in E as (s & Es & E). apply bind_Ok in E as (y & Ey & E).
      destruct y as [[lo hi]|]; [|apply ok_inj in E; subst l; destruct Hx]. apply bind_Ok in E as ([sv dv] & Ev & E). apply ok_inj in E. subst l.
      destruct Hx as [<-|[]]. destruct (frange_stated _ _ _ _ _ _ _ He Hs Ey) as (St & B1 & B2). split; [split; assumption|].
      unfold parseGetAndCheckVersionsNode in Ev. apply bind_Ok in Ev as (q & Hq & Ev). apply versions_spec in Ev as (V1 & V2 & V3); [|exact Hd].
      exists ch, s, (double_of lo), (double_of hi), sv, dv, q. repeat (split; [assumption|]). reflexivity. }
    split; [apply Forall_forall; intros x Hx; apply Hcs, Hx|]. intros d. split; [intros (x & Hx & <-); apply Hcs, Hx|].
    intros (ch & s & lo & hi & sv & dv & q & C1 & C2 & C3 & Es & St & Hq & V1 & V2 & V3 & ->).
    destruct (mapM_In_fwd _ _ _ ch Hc) as (b & Hb & E); [apply children_named_in; auto|]. rewrite Es in E. cbn [bind] in E.
    apply bind_Ok in E as (y & Ey & E). destruct (frange_stated_conv _ _ _ _ _ _ _ _ Hs St Ey) as (x1 & x2 & -> & <- & <-).
    unfold parseGetAndCheckVersionsNode in E. rewrite Hq in E. cbn [bind] in E.
    assert (V : parseGetAndCheckVersions (e_version e) q (sd, dp) = Ok (sv, dv)) by (apply versions_spec; auto).
    rewrite V in E. cbn [bind] in E. apply ok_inj in E. subst b. eexists. split; [apply in_concat; eexists; split; [exact Hb|left; reflexivity]|]. reflexivity. }
  destruct HA as [A1 A2], HC as [C1 C2]. split; [apply Forall_app; auto|]. intros d. rewrite <- A2, <- C2. split.
  - intros (x & Hx & E). apply in_app_iff in Hx as [Hx|Hx]; [left|right]; eauto.
  - intros [(x & Hx & E)|(x & Hx & E)]; exists x; (split; [apply in_app_iff; auto|exact E]).
Qed.
Lemma fnew_ranges e t sp sd dp n p l : env_fp_ok e -> fsps_ok t sp -> dp <= never -> float_new_ranges e t sp sd dp n p = Ok l ->
  Forall b64r l /\ forall d, (exists x, In x l /\ drange_of x = d) <-> exists r, fattr e t sp sd dp n r d \/ fchild e t sp sd dp n r d.
Proof.
  intros He Hs Hd H. unfold float_new_ranges in H. apply bind_Ok in H as (ls & Hl & H). apply ok_inj in H. subst l.
  assert (P := fun r l => franges_of_prop e t sp sd dp n p r l He Hs Hd). split.
  - apply Forall_forall. intros x Hx. apply in_concat in Hx as (l & Hl' & Hx). destruct (mapM_In _ _ _ _ Hl Hl') as (r & _ & E). apply P in E as [E _]. rewrite Forall_forall in E. auto.
  - intros d. split.
    + intros (x & Hx & <-). apply in_concat in Hx as (l & Hl' & Hx). destruct (mapM_In _ _ _ _ Hl Hl') as (r & _ & E). apply P in E as [_ E]. exists r. apply E. eauto.
    + intros (r & X). destruct (mapM_In_fwd _ _ _ r Hl) as (l & Hl' & E); [destruct r as [|[]]; cbn; auto 10|]. apply P in E as [_ E]. destruct (proj2 (E d) X) as (x & Hx & Ex).
      exists x. split; [apply in_concat; eauto|exact Ex].
Qed.

(** ** Everything float_parse establishes *)
Definition fget {A} (old : option float_state) (f : float_state -> A) (d : A) : A := match old with Some o => f o | None => d end.
Record float_inv (s : float_state) : Prop := mkFInv {
  finv_length : f_length s = float_length (f_type s);
  finv_sps : fsps_ok (f_type s) (f_specials s);
  finv_default : binary64 (f_default s) /\ fits (f_type s) (double_of (f_default s));
  finv_ranges : Forall b64r (f_ranges s);
  finv_sorted : StronglySorted (fun a b => ~ fwlt b a) (f_ranges s) }.
Definition fopt_inv (old : option float_state) : Prop := match old with Some o => float_inv o | None => True end.
Lemma float_parse_facts e c p n old s : env_fp_ok e -> fopt_inv old -> c_deprecated c <= never -> float_parse e c p n old = Ok s ->
  float_inv s /\
  (match old with Some o => f_type s = f_type o | None => find_prop p (L "type") <> None end) /\
  (forall txt, find_prop p (L "type") = Some txt -> float_type_of txt = Some (f_type s)) /\
  (exists new, f_specials s = fget old f_specials [] ++ new /\
     fspecial_elements e (f_type s) (c_since c) (c_deprecated c) (fget old f_specials []) (parseGetChildrenNamed n (L "special")) (f_specials s) /\
     (f_nonUniqueSpecials s = false -> NoDup (kvals new))) /\
  (match get_prop p (L "defaultValue") with [] => f_default s = fget old f_default (S754_zero false)
   | txt => float_text e (fvalues (f_specials s)) true txt (f_default s) end) /\
  (exists new, f_ranges s = fnormalise_ranges (fget old f_ranges [] ++ new) /\ Forall b64r (fget old f_ranges [] ++ new) /\
     forall d, (exists x, In x new /\ drange_of x = d) <-> exists r, fattr e (f_type s) (f_specials s) (c_since c) (c_deprecated c) n r d \/
       fchild e (f_type s) (f_specials s) (c_since c) (c_deprecated c) n r d).
Proof.
  intros He Ho Hd H. unfold float_parse in H. apply bind_Ok in H as (t & Ht & H). apply bind_Ok in H as (en & _ & H).
  apply bind_Ok in H as (nonU & _ & H). apply bind_Ok in H as ([[sps seen] nan] & Hsp & H). apply bind_Ok in H as (dflt & Hdf & H).
  apply bind_Ok in H as (vcv & _ & H). apply bind_Ok in H as (new & Hnew & H). apply bind_Ok in H as (units & _ & H). apply bind_Ok in H as (dec & _ & H).
  apply ok_inj in H. subst s. cbn [f_type f_length f_specials f_default f_ranges f_nonUniqueSpecials].
  fold (fget old f_specials []) in Hsp. fold (fget old f_default (S754_zero false)) in Hdf. fold (fget old f_ranges []) in Hnew |- *.
  assert (T : match old with Some o => t = f_type o | None => find_prop p (L "type") <> None end /\ forall txt, find_prop p (L "type") = Some txt -> float_type_of txt = Some t).
  { unfold float_update_type in Ht. apply bind_Ok in Ht as ([] & Hv & Ht). destruct old as [o|]; cbn [option_map] in *.
    - destruct (find_prop p (L "type")) as [v|] eqn:E.
      + apply bind_Ok in Ht as (t' & Ht' & Ht). apply of_opt_Ok in Ht'. destruct (float_type_eqb t' (f_type o)) eqn:Et; [|discriminate]. apply ok_inj in Ht. subst t.
        split; [reflexivity|]. intros v' [= <-]. rewrite Ht'. f_equal. destruct t', (f_type o); try discriminate; reflexivity.
      + cbn in Ht. apply ok_inj in Ht. split; [auto|]. discriminate.
    - destruct (find_of_count _ _ Hv) as [v E]. rewrite E in *. apply bind_Ok in Ht as (t' & Ht' & Ht). apply of_opt_Ok in Ht'. apply ok_inj in Ht. subst t'.
      split; [discriminate|]. intros v' [= <-]. exact Ht'. }
  destruct T as [T1 T2].
  assert (So : fsps_ok t (fget old f_specials [])) by (destruct old as [o|]; [rewrite T1; apply (finv_sps _ Ho)|split; constructor]).
  destruct (fspecials_fold _ _ _ _ _ _ He _ _ _ _ _ _ So (Forall_nil _) Hsp) as (nw & E & Sp & El & U).
  unfold float_update_default in Hdf. apply bind_Ok in Hdf as ([] & _ & Hdf).
  assert (D : (binary64 dflt /\ fits t (double_of dflt)) /\ match get_prop p (L "defaultValue") with [] => dflt = fget old f_default (S754_zero false) | txt => float_text e (fvalues sps) true txt dflt end).
  { destruct (get_prop p (L "defaultValue")) as [|ch txt]; cbn [is_nil] in Hdf.
    - apply ok_inj in Hdf. subst dflt. split; [|reflexivity]. destruct old as [o|]; cbn [fget]; [rewrite T1; apply (finv_default _ Ho)|].
      split; [reflexivity|]. pose proof (limit_top t). cbn. lia.
    - apply bind_Ok in Hdf as (v & Hv & Hdf). apply of_opt_Ok in Hv. apply bind_Ok in Hdf as ([] & Hg & Hdf). apply guard_Ok in Hg. apply ok_inj in Hdf. subst v.
      assert (B : binary64 dflt) by (eapply float_value_b64; eassumption). split; [|eapply float_text_ok; eassumption]. split; [exact B|]. apply in_type_spec; assumption. }
  destruct D as [D1 D2]. destruct (fnew_ranges _ _ _ _ _ _ _ _ He Sp Hd Hnew) as [B1 B2].
  assert (B3 : Forall b64r (fget old f_ranges [] ++ new)) by (apply Forall_app; split; [destruct old; [apply (finv_ranges _ Ho)|constructor]|exact B1]).
  destruct (fnormalise_facts _ B3) as (N1 & N2 & _).
  split; [constructor; cbn [f_type f_length f_specials f_default f_ranges]; auto|]. split; [exact T1|]. split; [exact T2|].
  split; [exists nw; split; [exact E|]; split; [apply El, Hd|]|].
  { intros N. specialize (U N (NoDup_nil _)). destruct U as (U1 & U2 & P); [intros []|]. cbn [app map] in P. rewrite app_nil_r in P. rewrite <- P.
    destruct nan; [constructor; [exact U2|exact U1]|exact U1]. }
  split; [exact D2|]. exists new. auto.
Qed.
