(** C63: valid values of generated set fields whose bits depend on the version. *)
From Coq Require Import Lia Sorted Permutation ZifyBool ZifyNat.
From Verif.Model Require Import Base Common Xml Units Field FieldCommon IntField SetField GenUtil GenComms CommsInt CommsSet.
From Verif.Spec Require Import Texts Ints Versions IntSpec EnumSpec GenSpec NameSpec CppSpec TokenSpec SetCode.
From Verif.Proofs Require Import BaseFacts CommonFacts IntFacts RangeFacts IntInv EnumInv GenFacts CommsIntFacts CommsOptFacts TemplateFacts TokenFacts FactoryFacts SetFacts SetValidFacts.
From Verif.Props Require Import PTexts PInt PEnum PGen PComms PTemplate PSetGen.
From Verif.Spec Require Import SetCode.
Local Open Scope string_scope. Local Open Scope Z_scope. Local Open Scope list_scope.

(** the code of valid() as written by the generator: none at all, or that of these statements *)
Definition written (t : str) (l : list stmt) : Prop := (t = [] /\ l = []) \/ tokens t = tokens (reject_code l).
Lemma some_bit s (p : bit_info -> bool) k : (exists n b, declared_bit s k n b /\ p b = true) \/ (forall n b, declared_bit s k n b -> p b = false).
Proof.
  destruct (existsb (fun x => (b_idx (snd x) =? k) && p (snd x)) (s_bits s)) eqn:E.
  - left. apply existsb_exists in E as ([n b] & I & E). cbn [snd] in E. apply andb_true_iff in E as [E1 E2]. exists n, b. split; [split; [exact I|lia]|exact E2].
  - right. intros n b [I E']. destruct (p b) eqn:Pb; [|reflexivity]. exfalso. apply not_true_iff_false in E. apply E. apply existsb_exists. exists (n, b). split; [exact I|]. cbn [snd]. rewrite Pb. lia.
Qed.

(** A value is valid in a version exactly if every bit which is free in that version may be
    anything and every other one has its reserved value. *)
Theorem C63_valid_partial : forall ge x c s n t, set_reachable s -> ge_versionDependent ge = true -> s_validCheckVersion s = true ->
  bits_of (c_inBitfield c) s n -> (forall k m b, declared_bit s k m b -> k < n) ->
  c_deprecated c <= never -> 0 <= gv_min_remote (ge_ver ge) ->
  orderly_bits (c_since c) (c_deprecated c) s ->
  (forall k m b, declared_bit s k m b -> b_depr b <= gv_min_remote (ge_ver ge) -> b_reservedValue b = s_reservedBit s) ->
  set_valid_body ge c s = Ok t ->
  exists l, written t l /\
   forall v w, 0 <= v < 2 ^ n -> supported (ge_ver ge) w -> c_since c <= w < c_deprecated c ->
    (set_valid (set_def_opts ge x c s) l v w <-> forall k, 0 <= k < n -> allowed_at (genSchemaVersion (ge_ver ge)) s w k (Z.testbit v k)).
Proof.
  intros ge x c s n t R V1 V2 Bn Bk Hc Hm O Old Ht. apply set_reachable_inv in R. pose proof O as [O1 O2].
  assert (Ck : set_check ge s = true) by (unfold set_check; now rewrite V1, V2).
  destruct (valid_body_code ge c s t Ck Ht) as (ck & Hck & W). exists (body_stmts c s ck). split.
  { destruct W as [[-> ->]|[_ W]]; [left; auto|right; exact W]. }
  clear W Ht. intros v w Hv [W1 W2] Wc. destruct (used_bits_pos c s R) as [Up Ub].
  assert (En : n = Z.min (used_bits c s) 64) by (unfold bits_of in *; congruence). clear Bn Ub.
  destruct (set_reserved ge c s) as [[mask value] must] eqn:H.
  unfold set_valid. rewrite (bitmask_bits ge x c s mask value must v R H) by lia. destruct (reserved_bits ge c s mask value must R H) as (_ & _ & K). rewrite <- En, Ck in K.
  rewrite (body_bits ge c s ck v w R Hck Hc O) by lia. clear H Hck.
  assert (Sk : forall b, bit_skipped ge true b = true <-> genSchemaVersion (ge_ver ge) < b_since b \/ b_depr b <= gv_min_remote (ge_ver ge)).
  { intros b. unfold bit_skipped, genDoesElementExist. destruct (genSchemaVersion (ge_ver ge) <? b_since b) eqn:E1, (b_depr b <=? gv_min_remote (ge_ver ge)) eqn:E2; cbn; split; intros; try discriminate; lia. }
  assert (Fr : forall b, bit_freed c true b = true <-> passing (c_since c) (c_deprecated c) b \/ b_reserved b = false) by (intros b; unfold bit_freed, passing; lia).
  assert (Sl : forall m b, sel ge c (m, b) = true <-> passing (c_since c) (c_deprecated c) b /\ b_since b <= genSchemaVersion (ge_ver ge)).
  { intros m b. unfold sel, limited, passing, genDoesElementExist. cbn [snd]. destruct (genSchemaVersion (ge_ver ge) <? b_since b) eqn:E1; cbn [andb]; lia. }
  assert (P : forall k, 0 <= k < n -> (((Z.testbit mask k = true -> Z.testbit v k = Z.testbit value k) /\
     (forall m b, declared_bit s k m b -> passing (c_since c) (c_deprecated c) b -> b_since b <= genSchemaVersion (ge_ver ge) -> (forall m' b', declared_bit s k m' b' -> ~ b_since b' <= w < b_depr b') -> Z.testbit v k = b_reservedValue b)) <->
     allowed_at (genSchemaVersion (ge_ver ge)) s w k (Z.testbit v k))).
  { intros k Hk. destruct (K k ltac:(lia)) as (_ & _ & Q). specialize (Q ltac:(lia)). unfold allowed_at, known_bit, present_at.
    destruct (some_bit s (fun b => b_since b <=? genSchemaVersion (ge_ver ge)) k) as [(m0 & b0 & D0 & K0)|No].
    2: { (* nothing known *)
      assert (No' : forall m b, ~ (declared_bit s k m b /\ b_since b <= genSchemaVersion (ge_ver ge))) by (intros m b [D Q']; specialize (No m b D); cbn beta in No; lia).
      destruct Q as [([m b] & I & E & S & _)|(_ & -> & Q)].
      { exfalso. cbn [snd] in *. specialize (No m b (conj I E)). apply not_true_iff_false in S. rewrite Sk in S. lia. }
      destruct Q as [([m b] & I & E & S & _)|(_ & ->)].
      { exfalso. cbn [snd] in *. specialize (No m b (conj I E)). apply not_true_iff_false in S. rewrite Sk in S. lia. }
      split; [intros [A _]; right; right; split; [exact No'|auto]|].
      intros [(m & b & D & _)|[(m & b & D & _)|[_ ->]]]; [destruct (No' m b D)|destruct (No' m b D)|]. split; [reflexivity|]. intros m b D _ S. destruct (No' m b (conj D S)). }
    assert (Ps : passing (c_since c) (c_deprecated c) b0 \/ (b_since b0 <= c_since c /\ c_deprecated c <= b_depr b0)) by (unfold passing; lia).
    assert (Same : forall m b, declared_bit s k m b -> b_reservedValue b = b_reservedValue b0).
    { intros m b D. destruct (list_eq_dec Ascii.ascii_dec m m0) as [-> |N].
      - destruct D as [I _], D0 as [I0 _]. pose proof (NoDup_assoc _ _ _ (sinv_names _ R) I). pose proof (NoDup_assoc _ _ _ (sinv_names _ R) I0). congruence.
      - now destruct (O2 k m b m0 b0 D D0 N) as (_ & ? & _). }
    destruct Ps as [Ps|[Ps1 Ps2]].
    2: { (* a bit of all versions; it is the only one *)
      assert (Only : forall m b, declared_bit s k m b -> b = b0).
      { intros m b D. destruct (list_eq_dec Ascii.ascii_dec m m0) as [-> |N].
        - destruct D as [I _], D0 as [I0 _]. pose proof (NoDup_assoc _ _ _ (sinv_names _ R) I). pose proof (NoDup_assoc _ _ _ (sinv_names _ R) I0). congruence.
        - destruct (O2 k m0 b0 m b D0 D ltac:(congruence)) as (A & _). unfold passing in A. lia. }
      assert (Bd : forall m b, declared_bit s k m b -> passing (c_since c) (c_deprecated c) b -> False) by (intros m b D A; rewrite (Only m b D) in A; unfold passing in A; lia).
      destruct (b_reserved b0) eqn:Rs.
      - destruct Q as [([m b] & I & E & S & F & _)|(_ & -> & Q)].
        { exfalso. cbn [snd] in *. apply Fr in F as [F|F]; [exact (Bd m b (conj I E) F)|]. rewrite (Only m b (conj I E)) in F. congruence. }
        assert (Ev : Z.testbit value k = b_reservedValue b0).
        { destruct Q as [([m b] & I & E & _ & ->)|(S & _)]; [cbn [snd] in *; now rewrite (Only m b (conj I E))|].
          exfalso. destruct D0 as [I0 E0]. specialize (S (m0, b0) I0 E0). cbn [snd] in S. apply Sk in S. lia. }
        rewrite Ev. split.
        + intros [A _]. right. left. exists m0, b0. split; [split; [exact D0|lia]|auto].
        + intros [(m & b & [D _] & _ & F)|[(m & b & [D _] & ->)|[A _]]].
          * rewrite (Only m b D) in F. congruence.
          * split; [intros _; now apply (Same m)|]. intros m' b' D' A. destruct (Bd m' b' D' A).
          * destruct (A m0 b0). split; [exact D0|lia].
      - destruct Q as [(y & _ & _ & _ & _ & ->)|(N & _ & _)].
        + split; [intros _; left; exists m0, b0; split; [split; [exact D0|lia]|]; split; [split; [lia|intros _; lia]|exact Rs]|].
          intros _. split; [discriminate|]. intros m b D A. destruct (Bd m b D A).
        + exfalso. destruct D0 as [I0 E0]. specialize (N (m0, b0) I0 E0). cbn [snd] in N.
          assert (bit_skipped ge true b0 = false) by (apply not_true_iff_false; rewrite Sk; lia). specialize (N H). apply not_true_iff_false in N. rewrite Fr in N. auto. }
    (* bits of some versions *)
    assert (All : forall m b, declared_bit s k m b -> passing (c_since c) (c_deprecated c) b).
    { intros m b D. destruct (list_eq_dec Ascii.ascii_dec m m0) as [-> |N].
      - destruct D as [I _], D0 as [I0 _]. pose proof (NoDup_assoc _ _ _ (sinv_names _ R) I). pose proof (NoDup_assoc _ _ _ (sinv_names _ R) I0). congruence.
      - now destruct (O2 k m b m0 b0 D D0 N) as (? & _). }
    destruct (some_bit s (fun b => (b_since b <=? w) && (w <? b_depr b)) k) as [(m1 & b1 & D1 & P1)|None].
    - (* one of them is there *)
      assert (Em : Z.testbit mask k = false).
      { destruct Q as [(y & _ & _ & _ & _ & E)|(N & _ & _)]; [exact E|]. exfalso. destruct D1 as [I1 E1]. specialize (N (m1, b1) I1 E1). cbn [snd] in N.
        assert (bit_skipped ge true b1 = false) by (apply not_true_iff_false; rewrite Sk; lia). specialize (N H). apply not_true_iff_false in N. rewrite Fr in N. apply N. left. exact (All m1 b1 (conj I1 E1)). }
      rewrite Em. split.
      + intros _. left. exists m1, b1. split; [split; [exact D1|lia]|]. split; [split; [lia|intros _; lia]|]. destruct (O1 _ _ _ D1) as (_ & _ & A). apply A. exact (All m1 b1 D1).
      + intros _. split; [discriminate|]. intros m b D _ _ A. exfalso. apply (A m1 b1 D1). lia.
    - assert (Nb : forall m b, declared_bit s k m b -> ~ b_since b <= w < b_depr b) by (intros m b D A; specialize (None m b D); cbn beta in None; lia).
      assert (Ev : Z.testbit mask k = true -> Z.testbit value k = b_reservedValue b0).
      { intros Em. destruct Q as [(y & _ & _ & _ & _ & E)|(N & _ & Q)]; [congruence|].
        assert (Sk' : forall m b, declared_bit s k m b -> bit_skipped ge true b = true).
        { intros m b [I E]. destruct (bit_skipped ge true b) eqn:S; [reflexivity|]. specialize (N (m, b) I E S). cbn [snd] in N. apply not_true_iff_false in N. rewrite Fr in N. exfalso. apply N. left. exact (All m b (conj I E)). }
        destruct Q as [([m b] & I & E & S & _)|(_ & ->)]; [exfalso; cbn [snd] in *; rewrite (Sk' m b (conj I E)) in S; discriminate|].
        symmetry. apply (Old k m0 b0 D0). specialize (Sk' m0 b0 D0). apply Sk in Sk'. lia. }
      split.
      + intros [_ A]. right. left. exists m0, b0. split; [split; [exact D0|lia]|]. apply (A m0 b0 D0 Ps); [lia|exact Nb].
      + intros [(m & b & [D _] & [A1 A2] & _)|[(m & b & [D _] & ->)|[A _]]].
        * exfalso. apply (Nb m b D). split; [exact A1|exact (A2 eq_refl)].
        * rewrite (Same m b D). split; [intros E; symmetry; now apply Ev|]. intros m' b' D' _ _ _. symmetry. now apply (Same m').
        * destruct (A m0 b0). split; [exact D0|lia]. }
  split.
  - intros [A B] k Hk. apply (P k Hk). split; [apply A; lia|]. intros m b [I E] Q1 Q2 N. rewrite <- E. apply (B m b I); [now apply Sl|]. rewrite E. exact N.
  - intros A. split.
    + intros k Hk E. destruct (K k Hk) as (B & _). specialize (B E). specialize (A k ltac:(lia)). apply (P k ltac:(lia)) in A as [A _]. auto.
    + intros m b I S N. pose proof (sinv_ok _ R) as F. rewrite Forall_forall in F. destruct (F _ I) as (_ & Hi & _). cbn [snd] in Hi.
      assert (D : declared_bit s (b_idx b) m b) by (split; [exact I|reflexivity]). pose proof (Bk _ _ _ D) as Bk'. apply Sl in S as [S1 S2].
      specialize (A (b_idx b) ltac:(lia)). apply (P (b_idx b) ltac:(lia)) in A as [_ A]. exact (A m b D S1 S2 N).
Qed.
Print Assumptions C63_valid_partial.

(** ** The code is generated at all, and the object knows its version *)
Lemma template_ok t l rp : cut_template 30 t = Some l -> exists out, genProcessTemplate t rp false = Ok out.
Proof. intros Hl. destruct (template_tokens 30 t l rp false Hl) as (out & E & _). eauto. Qed.
Ltac some_text := eapply template_ok; vm_compute; reflexivity.
Lemma key_text_ok e : exists t, key_text e = Ok t.
Proof.
  destruct e as [[since depr] [mask value]]. unfold key_text. destruct (since =? 0); [|destruct (not_deprecated <=? depr)].
  - generalize (genNumToStringU mask 1) (genNumToStringU value 1) (genNumToStringU since 0) (genNumToStringU depr 0). intros. some_text.
  - generalize (genNumToStringU mask 1) (genNumToStringU value 1) (genNumToStringU since 0) (genNumToStringU depr 0). intros. some_text.
  - generalize (genNumToStringU mask 1) (genNumToStringU value 1) (genNumToStringU since 0) (genNumToStringU depr 0). intros. some_text.
Qed.
Lemma gap_text_ok r : exists t, gap_text r = Ok t.
Proof. unfold gap_text. generalize (genNumToStringU (fst r) 0) (genNumToStringU (snd r) 0). intros. some_text. Qed.
Lemma mapM_ok {A B} (f : A -> res B) l : (forall a, In a l -> exists b, f a = Ok b) -> exists m, mapM f l = Ok m.
Proof.
  induction l as [|a l IH]; intros H; [exists []; reflexivity|]. destruct (H a (or_introl eq_refl)) as (b & E). destruct (IH (fun x I => H x (or_intror I))) as (m & Em).
  exists (b :: m). cbn [mapM]. rewrite E. cbn [bind]. rewrite Em. reflexivity.
Qed.
Lemma checks_ok ge c l : (forall x, In x l -> b_idx (snd x) < 64) -> forall k, exists k', foldM (check_step ge c) l k = Ok k'.
Proof.
  induction l as [|x l IH]; intros H k; [exists k; reflexivity|]. cbn [foldM]. pose proof (H x (or_introl eq_refl)) as Hx. unfold check_step at 1.
  destruct (negb (limited c (snd x))); [apply IH; intros; apply H; now right|].
  destruct (negb (genDoesElementExist (ge_ver ge) (b_since (snd x)) (b_depr (snd x)) false)); [apply IH; intros; apply H; now right|].
  unfold max_bits. replace (64 <=? b_idx (snd x)) with false by lia. apply IH. intros; apply H; now right.
Qed.
Theorem C63_generated_partial : forall ge c s, set_reachable s -> (forall k n b, declared_bit s k n b -> k < 64) -> exists t, set_valid_body ge c s = Ok t.
Proof.
  intros ge c s R Bk. apply set_reachable_inv in R. unfold set_valid_body. destruct (set_check ge s); cbn [negb]; [|eauto].
  assert (Bi : forall x, In x (bits_map s) -> b_idx (snd x) < 64) by (intros [n b] I; apply in_bits_map in I; exact (Bk _ n b (conj I eq_refl))).
  destruct (checks_ok ge c _ Bi (mkChecks [] 0 0 [])) as (k & Hk). unfold set_checks. rewrite Hk. cbn [bind].
  pose proof (checks_spec ge c _ _ (idx_pos s R) Hk) as C.
  destruct (mapM_ok key_text (checked_keys k) (fun e _ => key_text_ok e)) as (l1 & ->). cbn [bind].
  destruct (mapM_ok (repeated_text c s) (ck_bits k)) as (l2 & ->).
  { intros i I. unfold repeated_text. destruct C as [_ _ _ _ _ [C6 C6'] C7]. apply C7 in I as [Hi I]. rewrite C6' in I by exact Hi.
    destruct (filter (fun x => b_idx (snd x) =? i) (s_bits s)) as [|x xs] eqn:F.
    - exfalso. destruct (bits_at (filter (sel ge c) (bits_map s)) i) as [|y l] eqn:E; [cbn in I; discriminate|]. assert (Iy : In y (y :: l)) by now left. rewrite <- E in Iy.
      apply filter_In in Iy as [Iy Ei]. apply filter_In in Iy as [Iy _]. apply in_bits_map in Iy. assert (Q : In y (filter (fun x => b_idx (snd x) =? i) (s_bits s))) by (apply filter_In; auto). rewrite F in Q. destruct Q.
    - destruct (mapM_ok gap_text (repeated_gaps c s i) (fun r _ => gap_text_ok r)) as (gs & ->). cbn [bind]. destruct (is_nil gs); [eauto|].
      assert (Q : exists t, genProcessTemplate repeated_templ [(L "RESERVED_MASK", genNumToStringU (bit_mask i) 1); (L "RESERVED_VALUE", genNumToStringU (if b_reservedValue (snd x) then bit_mask i else 0) 1); (L "CONDITIONS", genStrListToString gs [nl; nl] [])] false = Ok t).
      { generalize (genNumToStringU (bit_mask i) 1) (genNumToStringU (if b_reservedValue (snd x) then bit_mask i else 0) 1) (genStrListToString gs [nl; nl] []). intros. some_text. }
      destruct Q as (t & ->). cbn [bind]. eauto. }
  cbn [bind]. cbv zeta. destruct (is_nil (l1 ++ concat l2)); [eauto|]. generalize (genStrListToString (l1 ++ concat l2) [nl] []). intros. some_text.
Qed.
Print Assumptions C63_generated_partial.
(** If valid() has a body, the object stores the version, given that no bit was gone before the
    first supported version. *)
Theorem C63_stored_partial : forall ge x c s t, set_reachable s -> set_valid_body ge c s = Ok t -> t <> [] ->
  (forall k n b, declared_bit s k n b -> gv_min_remote (ge_ver ge) < b_depr b) -> In (plain_option (T "VersionStorage")) (set_def_opts ge x c s).
Proof.
  intros ge x c s t R H Nt Old. apply set_reachable_inv in R. destruct (set_check ge s) eqn:Ck.
  2: { exfalso. unfold set_valid_body in H. rewrite Ck in H. cbn [negb] in H. apply Ok_inj in H. congruence. }
  destruct (valid_body_code ge c s t Ck H) as (k & Hk & [[E _]|[Nb _]]); [congruence|]. clear H. pose proof (checks_spec ge c _ _ (idx_pos s R) Hk) as C.
  assert (Ix : exists y, In y (filter (sel ge c) (bits_map s)) /\ b_idx (snd y) < 64).
  { destruct C as [C1 _ C3 _ _ [C6 C6'] C7]. destruct (filter (sel ge c) (bits_map s)) as [|y X]; [|exists y; split; [now left|]; inversion C1; lia]. exfalso. apply Nb. unfold body_stmts, checked_keys.
    destruct (ck_map k) as [|e m]; [|destruct (C3 e (or_introl eq_refl)) as ((y & [] & _) & _)]. destruct (ck_bits k) as [|i l]; [cbn [map]; now destruct (ck_rep k =? 0)|].
    exfalso. destruct (proj1 (C7 i) (or_introl eq_refl)) as [Hi Q]. rewrite C6' in Q by exact Hi. discriminate. }
  destruct Ix as ([n b] & Iy & Hb). apply filter_In in Iy as [Iy S]. pose proof Iy as Ib. apply in_bits_map in Ib. cbn [snd] in Hb. pose proof (Old _ n b (conj Ib eq_refl)) as Ob.
  apply set_opts_In. do 4 right. unfold set_reserved_opts. destruct (set_reserved ge c s) as [[mask value] must] eqn:Er. unfold set_reserved in Er.
  destruct (fold_left (reserved_step ge c (set_check ge s)) (bits_map s) (ones64, if s_reservedBit s then ones64 else 0, false)) as [[m0 v0] mu0] eqn:Ef.
  apply pair_equal_spec in Er as [_ <-]. assert (mu0 = true) as ->.
  { apply (reserved_fold_must _ _ _ _ _ _ _ _ _ _ Ef). right. exists (n, b). split; [exact Iy|]. cbn [snd]. split; [exact Hb|]. split; [exact Ck|]. rewrite Ck.
    unfold sel, limited, genDoesElementExist in S. cbn [snd andb] in S. unfold bit_skipped, genDoesElementExist. destruct (genSchemaVersion (ge_ver ge) <? b_since b) eqn:E1; cbn [andb] in *; [lia|].
    replace (b_depr b <=? gv_min_remote (ge_ver ge)) with false by lia. split; [reflexivity|lia]. }
  apply in_or_app. left. left. reflexivity.
Qed.
Print Assumptions C63_stored_partial.

(** ** Examples *)
Lemma orderly_dec since depr s :
  forallb (fun x => (0 <=? b_since (snd x)) && (b_depr (snd x) <=? never) && implb (b_reserved (snd x)) ((b_since (snd x) <=? since) && (depr <=? b_depr (snd x)))) (s_bits s) = true ->
  forallb (fun x => forallb (fun y => implb ((b_idx (snd x) =? b_idx (snd y)) && negb (str_eqb (fst x) (fst y)))
     (((since <? b_since (snd x)) || (b_depr (snd x) <? depr)) && Bool.eqb (b_reservedValue (snd x)) (b_reservedValue (snd y)) && implb (b_since (snd x) <? b_since (snd y)) (b_depr (snd x) <=? b_depr (snd y)))) (s_bits s)) (s_bits s) = true ->
  orderly_bits since depr s.
Proof.
  intros H1 H2. rewrite forallb_forall in H1, H2. split.
  - intros k n b [I _]. specialize (H1 _ I). cbn [snd] in H1. unfold passing. destruct (b_reserved b); cbn [implb] in H1; lia || (repeat split; lia).
  - intros k n b n' b' [I E] [I' E'] N. specialize (H2 _ I). rewrite forallb_forall in H2. specialize (H2 _ I'). cbn [fst snd] in H2. rewrite E, E', Z.eqb_refl in H2.
    apply str_eqb_neq in N. rewrite N in H2. cbn [negb andb implb] in H2. apply andb_true_iff in H2 as [H2 H3]. apply andb_true_iff in H2 as [H2 H4]. apply Bool.eqb_prop in H4.
    unfold passing. split; [lia|]. split; [exact H4|]. intros Lt. replace (b_since b <? b_since b') with true in H3 by lia. cbn [implb] in H3. lia.
Qed.
Lemma each_dec s (p : bit_info -> bool) (P : Z -> bit_info -> Prop) : (forall b, p b = true -> P (b_idx b) b) -> forallb (fun x => p (snd x)) (s_bits s) = true -> forall k n b, declared_bit s k n b -> P k b.
Proof. intros H F k n b [I <-]. rewrite forallb_forall in F. exact (H _ (F _ I)). Qed.
Definition ex_versions_src : list node := [ex_bit5 [("name", "A"); ("idx", "0")]; ex_bit5 [("name", "B"); ("idx", "1"); ("sinceVersion", "3")];
  ex_bit5 [("name", "C"); ("idx", "2"); ("deprecated", "4"); ("reservedValue", "1")]; ex_bit5 [("name", "D"); ("idx", "3"); ("deprecated", "2")];
  ex_bit5 [("name", "Old"); ("idx", "4"); ("deprecated", "3")]; ex_bit5 [("name", "New"); ("idx", "4"); ("sinceVersion", "4")]].
Definition ex_versions_attrs : list (string * string) := [("length", "1"); ("validCheckVersion", "true"); ("nonUniqueAllowed", "true")].
Definition ex_versions : set_state := Eval vm_compute in got_set (ex_set5 ex_versions_attrs ex_versions_src).
Example C63_ex : ex_set5 ex_versions_attrs ex_versions_src = Ok ex_versions /\ set_reachable ex_versions /\ s_validCheckVersion ex_versions = true /\ bits_of false ex_versions 8 /\
  (forall k m b, declared_bit ex_versions k m b -> k < 8) /\ orderly_bits 0 never ex_versions /\
  (forall k m b, declared_bit ex_versions k m b -> b_depr b <= gv_min_remote (ge_ver versioned_ge) -> b_reservedValue b = s_reservedBit ex_versions) /\
  exists t, set_valid_body versioned_ge (ex_common 0 false) ex_versions = Ok t /\ t <> [].
Proof.
  assert (E : ex_set5 ex_versions_attrs ex_versions_src = Ok ex_versions) by (vm_compute; reflexivity). split; [exact E|]. split; [exact (ex_set5_reach _ _ _ E)|]. clear E.
  split; [reflexivity|]. split; [vm_compute; reflexivity|]. split; [|split; [|split]].
  - apply (each_dec ex_versions (fun b => b_idx b <? 8) (fun k b => k < 8)); [intros; lia|vm_compute; reflexivity].
  - apply orderly_dec; vm_compute; reflexivity.
  - apply (each_dec ex_versions (fun b => implb (b_depr b <=? 2) (Bool.eqb (b_reservedValue b) (s_reservedBit ex_versions))) (fun k b => b_depr b <= gv_min_remote (ge_ver versioned_ge) -> b_reservedValue b = s_reservedBit ex_versions)); [|vm_compute; reflexivity].
    intros b H Q. change (gv_min_remote (ge_ver versioned_ge)) with 2 in Q. replace (b_depr b <=? 2) with true in H by lia. cbn [implb] in H. now apply Bool.eqb_prop.
  - destruct (set_valid_body versioned_ge (ex_common 0 false) ex_versions) as [t| |] eqn:E.
    + exists t. split; [reflexivity|]. intros ->. vm_compute in E. discriminate E.
    + vm_compute in E. discriminate E.
    + vm_compute in E. discriminate E.
Qed.

(** ** Where the claim does not hold *)
Definition ck_of (c : common) (s : set_state) : checks := match set_checks versioned_ge c s with Ok k => k | _ => mkChecks [] 0 0 [] end.
Definition text_of (c : common) (s : set_state) : str := match set_valid_body versioned_ge c s with Ok t => t | _ => [] end.
Definition ex_c : common := ex_common 0 false.
Lemma rejected x s k v w l : returns v w l true -> l = body_stmts ex_c s k -> ~ set_valid (set_def_opts versioned_ge x ex_c s) l v w.
Proof. intros R _ [_ F]. pose proof (returns_det _ _ _ _ _ R F). discriminate. Qed.
Lemma bit_one k : 0 <= k -> k <> 0 -> Z.testbit 1 k = false.
Proof. intros. change 1 with (2 ^ 0). apply Z.pow2_bits_false. congruence. Qed.
Definition shared_attrs : list (string * string) := [("length", "1"); ("validCheckVersion", "true"); ("nonUniqueAllowed", "true")].
(** Bits which share an index, one within the versions of the other: the generated code forgets the
    outer one once the inner one is deprecated. *)
Definition nested_src : list node := [ex_bit5 [("name", "Outer"); ("idx", "0"); ("deprecated", "5")]; ex_bit5 [("name", "Inner"); ("idx", "0"); ("sinceVersion", "1"); ("deprecated", "3")]].
Definition nested : set_state := Eval vm_compute in got_set (ex_set5 shared_attrs nested_src).
Definition nested_k : checks := Eval vm_compute in ck_of ex_c nested.
Definition nested_t : str := Eval vm_compute in text_of ex_c nested.
Theorem C63_nested_refuted : exists s t l, ex_set5 shared_attrs nested_src = Ok s /\ set_reachable s /\
  set_valid_body versioned_ge ex_c s = Ok t /\ written t l /\
  (forall k, 0 <= k < 8 -> allowed_at (genSchemaVersion (ge_ver versioned_ge)) s 4 k (Z.testbit 1 k)) /\
  ~ set_valid (set_def_opts versioned_ge plain_fs ex_c s) l 1 4.
Proof.
  exists nested, nested_t, (body_stmts ex_c nested nested_k). assert (E : ex_set5 shared_attrs nested_src = Ok nested) by (vm_compute; reflexivity). split; [exact E|].
  split; [exact (ex_set5_reach _ _ _ E)|]. clear E. split; [vm_compute; reflexivity|]. split; [right; vm_compute; reflexivity|]. split.
  - change (genSchemaVersion (ge_ver versioned_ge)) with 5. intros k Hk. destruct (Z.eq_dec k 0) as [-> |N].
    + left. exists (L "Outer"), (mkBit 0 0 5 false false false [] []). split; [split; [split; [left; reflexivity|reflexivity]|cbn [b_since]; lia]|]. split; [split; [cbn [b_since]; lia|cbn [b_depr]; lia]|reflexivity].
    + right. right. split; [|apply bit_one; lia]. intros n b [[I E] _]. cbn [nested s_bits In] in I. destruct I as [I|[I|[]]]; apply pair_equal_spec in I as [_ <-]; cbn [b_idx] in E; lia.
  - apply (rejected plain_fs nested nested_k); [|reflexivity].
    assert (Ec : checked_keys nested_k = []) by (vm_compute; reflexivity).
    assert (Eg : repeated_gaps ex_c nested 0 = [(5, 1); (3, 4294967295)]) by (vm_compute; reflexivity).
    assert (Ev : existsb (key_rej 1 4) (checked_keys nested_k) || existsb (rep_rej ex_c nested 1 4) (ck_bits nested_k) = true) by (vm_compute; reflexivity).
    rewrite <- Ev. apply body_returns; [unfold never; lia|rewrite Ec; constructor|]. change (ck_bits nested_k) with [0]. constructor; [|constructor]. split; [lia|].
    rewrite Eg. constructor; [|constructor; [|constructor]]; unfold pair_small, two64; cbn [fst snd]; lia.
Qed.
Print Assumptions C63_nested_refuted.
(** A later name for a bit of all versions: before that name the bit has to be zero, although it is
    not reserved. *)
Definition alias_src : list node := [ex_bit5 [("name", "First"); ("idx", "0")]; ex_bit5 [("name", "Later"); ("idx", "0"); ("sinceVersion", "4")]].
Definition alias_set : set_state := Eval vm_compute in got_set (ex_set5 shared_attrs alias_src).
Definition alias_k : checks := Eval vm_compute in ck_of ex_c alias_set.
Definition alias_t : str := Eval vm_compute in text_of ex_c alias_set.
Theorem C63_alias_refuted : exists s t l, ex_set5 shared_attrs alias_src = Ok s /\ set_reachable s /\
  set_valid_body versioned_ge ex_c s = Ok t /\ written t l /\
  (forall k, 0 <= k < 8 -> allowed_at (genSchemaVersion (ge_ver versioned_ge)) s 3 k (Z.testbit 1 k)) /\
  ~ set_valid (set_def_opts versioned_ge plain_fs ex_c s) l 1 3.
Proof.
  exists alias_set, alias_t, (body_stmts ex_c alias_set alias_k). assert (E : ex_set5 shared_attrs alias_src = Ok alias_set) by (vm_compute; reflexivity). split; [exact E|].
  split; [exact (ex_set5_reach _ _ _ E)|]. clear E. split; [vm_compute; reflexivity|]. split; [right; vm_compute; reflexivity|]. split.
  - change (genSchemaVersion (ge_ver versioned_ge)) with 5. intros k Hk. destruct (Z.eq_dec k 0) as [-> |N].
    + left. exists (L "First"), (mkBit 0 0 4294967295 false false false [] []). split; [split; [split; [left; reflexivity|reflexivity]|cbn [b_since]; lia]|]. split; [split; [cbn [b_since]; lia|cbn [b_depr]; lia]|reflexivity].
    + right. right. split; [|apply bit_one; lia]. intros n b [[I E] _]. cbn [alias_set s_bits In] in I. destruct I as [I|[I|[]]]; apply pair_equal_spec in I as [_ <-]; cbn [b_idx] in E; lia.
  - apply (rejected plain_fs alias_set alias_k); [|reflexivity].
    assert (Ec : checked_keys alias_k = [((4, 4294967295), (1, 0))]) by (vm_compute; reflexivity).
    assert (Ev : existsb (key_rej 1 3) (checked_keys alias_k) || existsb (rep_rej ex_c alias_set 1 3) (ck_bits alias_k) = true) by (vm_compute; reflexivity).
    rewrite <- Ev. apply body_returns; [unfold never; lia| |constructor]. rewrite Ec. constructor; [|constructor]. unfold key_small, two64. cbn [fst snd]. lia.
Qed.
Print Assumptions C63_alias_refuted.
(** A bit which was gone before the first supported version has two reserved values, its own and
    the one of the field: no value is valid. *)
Definition gone_src : list node := [ex_bit5 [("name", "Gone"); ("idx", "0"); ("deprecated", "2"); ("reservedValue", "1")]].
Definition gone_set : set_state := Eval vm_compute in got_set (ex_set5 shared_attrs gone_src).
Definition gone_k : checks := Eval vm_compute in ck_of ex_c gone_set.
Definition gone_t : str := Eval vm_compute in text_of ex_c gone_set.
Theorem C63_gone_refuted : exists s t l, ex_set5 shared_attrs gone_src = Ok s /\ set_reachable s /\
  set_valid_body versioned_ge ex_c s = Ok t /\ written t l /\
  (forall k, 0 <= k < 8 -> allowed_at (genSchemaVersion (ge_ver versioned_ge)) s 3 k (Z.testbit 1 k)) /\
  forall v, 0 <= v -> ~ set_valid (set_def_opts versioned_ge plain_fs ex_c s) l v 3.
Proof.
  exists gone_set, gone_t, (body_stmts ex_c gone_set gone_k). assert (E : ex_set5 shared_attrs gone_src = Ok gone_set) by (vm_compute; reflexivity). split; [exact E|].
  assert (R : set_reachable gone_set) by exact (ex_set5_reach _ _ _ E). split; [exact R|]. clear E. split; [vm_compute; reflexivity|]. split; [right; vm_compute; reflexivity|]. split.
  - change (genSchemaVersion (ge_ver versioned_ge)) with 5. intros k Hk. destruct (Z.eq_dec k 0) as [-> |N].
    + right. left. exists (L "Gone"), (mkBit 0 0 2 false false true [] []). split; [split; [split; [left; reflexivity|reflexivity]|cbn [b_since]; lia]|reflexivity].
    + right. right. split; [|apply bit_one; lia]. intros n b [[I E] _]. cbn [gone_set s_bits In] in I. destruct I as [I|[]]; apply pair_equal_spec in I as [_ <-]; cbn [b_idx] in E; lia.
  - apply set_reachable_inv in R. intros v Hv [A B]. assert (H : set_reserved versioned_ge ex_c gone_set = (255, 0, false)) by (vm_compute; reflexivity).
    rewrite (bitmask_bits versioned_ge plain_fs ex_c gone_set 255 0 false v R H Hv) in A. specialize (A 0 ltac:(lia) eq_refl).
    assert (Ec : checked_keys gone_k = [((0, 2), (1, 1))]) by (vm_compute; reflexivity).
    assert (Rt : returns v 3 (body_stmts ex_c gone_set gone_k) (existsb (key_rej v 3) (checked_keys gone_k) || existsb (rep_rej ex_c gone_set v 3) (ck_bits gone_k))).
    { apply body_returns; [unfold never; lia| |constructor]. rewrite Ec. constructor; [|constructor]. unfold key_small, two64. cbn [fst snd]. lia. }
    pose proof (returns_det _ _ _ _ _ Rt B) as Q. rewrite Ec in Q. change (ck_bits gone_k) with (@nil Z) in Q. cbn [existsb] in Q. unfold key_rej in Q. cbn [fst snd] in Q.
    change ((3 <? 0) || (2 <=? 3)) with true in Q. cbn [andb] in Q. assert (Ez : Z.land v 1 = 1) by lia. assert (Tb : Z.testbit (Z.land v 1) 0 = true) by (rewrite Ez; reflexivity).
    rewrite Z.land_spec, A in Tb. discriminate Tb.
Qed.
Print Assumptions C63_gone_refuted.
(** A bit of a set of variable length may have an index beyond 63; if it depends on the version the
    generator shifts by that many bits, which is undefined. *)
Definition wide_src : list node := [ex_bit5 [("name", "Wide"); ("idx", "70"); ("sinceVersion", "3")]].
Definition wide_attrs : list (string * string) := [("type", "uintvar"); ("validCheckVersion", "true")].
Definition wide_set : set_state := Eval vm_compute in got_set (ex_set5 wide_attrs wide_src).
Theorem C63_shift_refuted : exists s, ex_set5 wide_attrs wide_src = Ok s /\ set_reachable s /\ set_valid_body versioned_ge ex_c s = UB.
Proof.
  exists wide_set. assert (E : ex_set5 wide_attrs wide_src = Ok wide_set) by (vm_compute; reflexivity). split; [exact E|].
  split; [exact (ex_set5_reach _ _ _ E)|]. vm_compute. reflexivity.
Qed.
Print Assumptions C63_shift_refuted.
