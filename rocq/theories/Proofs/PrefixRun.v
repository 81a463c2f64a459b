(** What the generated functions do. *)
From Coq Require Import Lia ZifyBool ZifyNat.
From Verif.Model Require Import Base Common Units Field GenUtil GenComms CommsInt CommsCond CommsPrefix.
From Verif.Spec Require Import Texts Ints FieldSpec GenSpec CppSpec TokenSpec CondCode CondTyping PrefixCode.
From Verif.Proofs Require Import BaseFacts CommonFacts CommsIntFacts CondCodeFacts CondTextFacts CondExprFacts CondMeanFacts TokenFacts PrefixFacts.
Local Open Scope string_scope.
Local Open Scope Z_scope.
Local Open Scope list_scope.

(** ** Types *)
Lemma holds_below ty m v : cpp_holds ty m -> 0 <= v <= m -> cpp_holds ty v.
Proof.
  intros [(n & I & H) | (n & I & H)] V; [left|right]; exists n; (split; [exact I|]); unfold signed_bits, unsigned_bits in *; [|lia].
  assert (0 < 2 ^ (n - 1)) by (cbn [In signed_cpp] in I; repeat (destruct I as [I | I]; [apply pair_equal_spec in I as [_ <-]; reflexivity|]); destruct I). lia.
Qed.
Lemma limit_nonneg ty m : limit ty m -> 0 <= m < 2 ^ 64.
Proof.
  intros [H U]. split; [|apply cpp_dom in H; lia].
  destruct H as [(n & I & H) | (n & I & H)].
  - apply U. left. exists n. split; [exact I|]. unfold signed_bits. cbn [In signed_cpp] in I.
    repeat (destruct I as [I | I]; [apply pair_equal_spec in I as [_ <-]; lia|]); destruct I.
  - unfold unsigned_bits in H. lia.
Qed.
Lemma limit_exists ty z : cpp_holds ty z -> exists m, limit ty m.
Proof.
  unfold limit, cpp_holds, signed_bits, unsigned_bits.
  intros [(n & I & H) | (n & I & H)]; cbn [In signed_cpp unsigned_cpp] in I;
    repeat (destruct I as [I | I]; [apply pair_equal_spec in I as [<- <-];
      first [ exists (2 ^ (8 - 1) - 1); split; [left; exists 8; split; [cbn; tauto|lia]|]
            | exists (2 ^ (16 - 1) - 1); split; [left; exists 16; split; [cbn; tauto|lia]|]
            | exists (2 ^ (32 - 1) - 1); split; [left; exists 32; split; [cbn; tauto|lia]|]
            | exists (2 ^ (64 - 1) - 1); split; [left; exists 64; split; [cbn; tauto|lia]|]
            | exists (2 ^ 8 - 1); split; [right; exists 8; split; [cbn; tauto|lia]|]
            | exists (2 ^ 16 - 1); split; [right; exists 16; split; [cbn; tauto|lia]|]
            | exists (2 ^ 32 - 1); split; [right; exists 32; split; [cbn; tauto|lia]|]
            | exists (2 ^ 64 - 1); split; [right; exists 64; split; [cbn; tauto|lia]|] ];
      intros k [(b & J & K) | (b & J & K)]; cbn [In signed_cpp unsigned_cpp] in J;
        repeat (destruct J as [J | J]; [apply pair_equal_spec in J as [J <-]; try discriminate J; lia|]); destruct J|]); destruct I.
Qed.

(** ** One way to run *)
Lemma limit_det ty m m' : limit ty m -> limit ty m' -> m = m'.
Proof. intros [A B] [C D]. specialize (B _ C). specialize (D _ A). lia. Qed.
Lemma ival_det st e ty z : ival st e ty z -> forall ty' z', ival st e ty' z' -> ty = ty' /\ z = z'.
Proof.
  induction 1; intros ty' z' H'; inversion H'; subst; try (split; congruence); try congruence.
  - match goal with A : seqs st x = Some _, B : seqs st x = Some _ |- _ => rewrite A in B; injection B as B; apply app_inj_tail in B as [_ ->]; auto end.
  - match goal with A : ival st e _ _ |- _ => destruct (IHival _ _ A) as [_ ->]; auto end.
  - match goal with A : first_named t _ = Some _, B : first_named t _ = Some _ |- _ => rewrite A in B; injection B as -> end. split; [reflexivity|eapply limit_det; eauto].
Qed.
Lemma bval_det st b c c' : bval st b c -> bval st b c' -> c = c'.
Proof.
  intros H H'. destruct H; inversion H'; subst; try congruence.
  match goal with A : ival st e _ x, B : ival st e _ _, C : ival st e' _ y, D : ival st e' _ _ |- _ =>
    destruct (ival_det _ _ _ _ A _ _ B) as [_ ->]; destruct (ival_det _ _ _ _ C _ _ D) as [_ ->]; reflexivity end.
Qed.
Lemma same_width ty y y' : cpp_holds ty y -> cpp_holds ty y' -> exists n, In (ty, n) (signed_cpp ++ unsigned_cpp) /\ 0 < 2 ^ n /\ - 2 ^ n < y - y' < 2 ^ n.
Proof.
  unfold cpp_holds, signed_bits, unsigned_bits.
  intros [(n & I & A) | (n & I & A)] [(n' & I' & C) | (n' & I' & C)]; exists n; (split; [rewrite in_app_iff; auto|]);
    cbn [In signed_cpp unsigned_cpp] in I, I';
    destruct I as [I | [I | [I | [I | []]]]]; apply pair_equal_spec in I as [<- <-];
    destruct I' as [I' | [I' | [I' | [I' | []]]]]; apply pair_equal_spec in I' as [I' <-]; try discriminate I'; lia.
Qed.
Lemma converted_det ty x y y' : converted ty x y -> converted ty x y' -> y = y'.
Proof.
  intros [A B] [C D]. destruct (same_width _ _ _ A C) as (n & I & P & W). specialize (B n I). specialize (D n I).
  apply Z.mod_divide in B; [|lia]; apply Z.mod_divide in D; [|lia]; destruct B as (u & B); destruct D as (v & D).
  set (p := 2 ^ n) in *. assert (y - y' = (v - u) * p) as E by lia. clear B D. assert (v - u = 0) by nia. nia.
Qed.
Scheme exec_mind := Induction for exec Sort Prop with exec_all_mind := Induction for exec_all Sort Prop.
Lemma exec_all_det st l st1 o1 : exec_all st l st1 o1 -> forall st2 o2, exec_all st l st2 o2 -> st1 = st2 /\ o1 = o2.
Proof.
  intro H. induction H using exec_all_mind with
    (P := fun st s st1 o1 _ => forall st2 o2, exec st s st2 o2 -> st1 = st2 /\ o1 = o2).
  all: intros st2 o2 H2; inversion H2; subst; auto.
  all: repeat match goal with
    | A : bval ?s ?b ?x, B : bval ?s ?b ?y |- _ => pose proof (bval_det _ _ _ _ A B); clear B; subst; try discriminate
    | A : ival ?s ?e _ _, B : ival ?s ?e _ _ |- _ => destruct (ival_det _ _ _ _ A _ _ B); subst; clear B
    | IH : (forall st2 o2, exec_all ?s ?l st2 o2 -> _ = st2 /\ ?o = o2), B : exec_all ?s ?l ?s2 ?o' |- _ => destruct (IH _ _ B); clear B; subst; try discriminate
    | IH : (forall st2 o2, exec ?s ?l st2 o2 -> _ = st2 /\ ?o = o2), B : exec ?s ?l ?s2 ?o' |- _ => destruct (IH _ _ B); clear B; subst; try discriminate
    | A : nums ?s ?a = Some _, B : nums ?s ?a = Some _ |- _ => rewrite A in B; injection B as B; subst
    | A : first_named ?v ?l = Some _, B : first_named ?v ?l = Some _ |- _ => rewrite A in B; injection B as B; subst
    | A : converted ?t ?x ?y, B : converted ?t ?x ?y' |- _ => pose proof (converted_det _ _ _ _ A B); clear B; subst
    | A : seqs ?s ?a = Some _, B : seqs ?s ?a = Some _ |- _ => rewrite A in B; injection B as B; subst
    | A : _ ++ [_] = _ ++ [_] |- _ => apply app_inj_tail in A as [A _]; subst
    end; auto; try congruence.
Qed.

(** ** Execution *)
Lemma upd_same {A} (f : acc -> option A) a v : upd f a v a = Some v.
Proof. unfold upd. destruct (acc_eq_dec a a); congruence. Qed.
Lemma upd_other {A} (f : acc -> option A) a b v : b <> a -> upd f a v b = f b.
Proof. unfold upd. destruct (acc_eq_dec a b); congruence. Qed.
Ltac go := eapply exec_next.
Definition some_run (code : list istmt) (a x : acc) (ty : txt) (z : Z) (l : list Z) (z' : Z) (l' : list Z) (updated : bool) : Prop :=
  forall st, nums st a = Some (ty, z) -> seqs st x = Some l ->
  exists st', exec_all st code st' (Returned updated) /\
    nums st' a = Some (ty, z') /\ seqs st' x = Some l' /\
    (forall b, b <> a -> nums st' b = nums st b) /\ (forall y, y <> x -> seqs st' y = seqs st y).
Lemma run_all code a x ty z l z' l' u : some_run code a x ty z l z' l' u -> runs code a x ty z l z' l' u.
Proof.
  intros H st Na Sx. destruct (H st Na Sx) as (st' & E & R). split; [eauto|]. intros st2 o2 E2.
  destruct (exec_all_det _ _ _ _ E _ _ E2) as [<- <-]. auto.
Qed.
Lemma bval_as st b c c' : bval st b c' -> c' = c -> bval st b c. Proof. now intros H <-. Qed.
Lemma seq_run a x ty z l m : cpp_holds ty z -> elements l -> limit ty m ->
  let n := Z.of_nat (length l) in let l' := firstn (Z.to_nat (Z.min m n)) l in
  runs (len_code a x) a x ty z l (Z.of_nat (length l')) l' (negb (z =? n)).
Proof.
  intros Hz (_ & _ & Hn) Lm n l'. apply run_all. intros st Na Sx. pose proof (limit_nonneg _ _ Lm) as Bm. pose proof (cpp_dom _ _ Hz) as Bz. destruct Lm as [Lm Um].
  pose proof (Um _ Hz) as Zm.
  assert (length l' = Z.to_nat (Z.min m n)) as Ll by (unfold l'; rewrite firstn_length; lia).
  set (st1 := add_var st (T "lenValue") ty z). set (st2 := add_var st1 (T "realLength") size_t n).
  assert (bval st2 (BEq (ICast (IVar (T "lenValue"))) (IVar (T "realLength"))) (z mod 2 ^ 64 =? n)) as B.
  { apply bval_eq; [apply ival_cast with (ty := ty); apply ival_var; reflexivity|apply ival_var; reflexivity]. }
  assert (z mod 2 ^ 64 =? n = (z =? n)) as Eq.
  { destruct (Z.eq_dec z n) as [->|D]; [rewrite Z.mod_small by lia; lia|]. replace (z =? n) with false by lia.
    destruct (Z_lt_ge_dec z 0) as [Hlt|Hge].
    - replace (z mod 2 ^ 64) with (z + 2 ^ 64); [lia|]. apply Zmod_unique with (q := -1); lia.
    - rewrite Z.mod_small by lia. lia. }
  rewrite Eq in B. destruct (z =? n) eqn:En.
  - apply Z.eqb_eq in En. exists st2. split.
    + go; [apply exec_auto; constructor; exact Na|]. go; [apply exec_auto with (ty := size_t) (z := n); apply ival_size; exact Sx|].
      apply exec_stop; [|discriminate]. apply exec_if; [exact B|]. apply exec_stop; [constructor|discriminate].
    + assert (l' = l) as -> by (unfold l'; apply firstn_all2; lia). repeat split; auto. change (nums st2 a) with (nums st a). rewrite Na. now rewrite En.
  - set (st3 := add_type st2 (T "LenValueType") ty). set (st4 := add_var st3 (T "MaxLenValue") size_t (m mod 2 ^ 64)).
    set (st5 := add_var st4 (T "maxAllowedLen") size_t (Z.min (m mod 2 ^ 64) n)).
    assert (m mod 2 ^ 64 = m) as Em by (apply Z.mod_small; lia).
    set (st6 := set_num st5 a (ty, Z.min m n)).
    assert (exec_all st2 [SUsing (T "LenValueType") (IVar (T "lenValue"));
      SAuto (T "static const auto") (T "MaxLenValue") (ICast (IMax (T "LenValueType")));
      SAuto (T "auto") (T "maxAllowedLen") (IMin (T "MaxLenValue") (T "realLength")); SSet a (T "maxAllowedLen")] st6 Done) as X.
    { go; [apply exec_using with (z := z); apply ival_var; reflexivity|].
      go; [apply exec_auto with (ty := size_t) (z := m mod 2 ^ 64); apply ival_cast with (ty := ty); apply ival_max; [reflexivity|split; assumption]|].
      go; [apply exec_auto with (ty := size_t) (z := Z.min (m mod 2 ^ 64) n); apply ival_min; reflexivity|].
      go; [apply exec_set with (z := z) (x := Z.min (m mod 2 ^ 64) n) (y := Z.min m n); [exact Na|reflexivity|]|constructor].
      rewrite Em. apply converted_self. apply holds_below with (m := m); [exact Lm|lia]. }
    assert (Y : exists st', exec_all st6 [SIf (BLess (T "maxAllowedLen") (T "realLength")) [SResize x (T "maxAllowedLen")]; SReturn true] st' (Returned true) /\
      nums st' = nums st6 /\ seqs st' x = Some l' /\ (forall y, y <> x -> seqs st' y = seqs st y)).
    { assert (bval st6 (BLess (T "maxAllowedLen") (T "realLength")) (Z.min (m mod 2 ^ 64) n <? n)) as B2 by (apply bval_less; reflexivity).
      rewrite Em in B2. destruct (Z.min m n <? n) eqn:Lt.
      - exists (set_seq st6 x l'). split; [|split; [reflexivity|split; [apply upd_same|intros; now apply upd_other]]].
        go; [apply exec_if; [exact B2|]|apply exec_stop; [constructor|discriminate]].
        go; [|constructor]. unfold l'. rewrite <- Em at 1. apply exec_resize; [exact Sx|reflexivity|lia].
      - assert (l' = l) as -> by (unfold l'; apply firstn_all2; lia).
        exists st6. split; [|auto]. go; [apply exec_else; exact B2|apply exec_stop; [constructor|discriminate]]. }
    destruct Y as (st' & Y & Yn & Ys & Yo). exists st'. split; [|split; [|split; [exact Ys|split; [|exact Yo]]]].
    + go; [apply exec_auto; constructor; exact Na|]. go; [apply exec_auto with (ty := size_t) (z := n); apply ival_size; exact Sx|].
      go; [apply exec_else; exact B|]. fold st1 st2.
      inversion X as [|? ? ? s3 ? ? X1 X2|]; subst; [|congruence]. go; [exact X1|].
      inversion X2 as [|? ? ? s4 ? ? X3 X4|]; subst; [|congruence]. go; [exact X3|].
      inversion X4 as [|? ? ? s5 ? ? X5 X6|]; subst; [|congruence]. go; [exact X5|].
      inversion X6 as [|? ? ? s6 ? ? X7 X8|]; subst; [|congruence]. go; [exact X7|].
      inversion X8; subst. exact Y.
    + rewrite Yn. cbn [st6 set_num nums]. rewrite upd_same. do 2 f_equal. lia.
    + intros b Hb. rewrite Yn. cbn [st6 set_num nums]. rewrite upd_other by exact Hb. reflexivity.
Qed.

Lemma cast_eq z n : - 2 ^ 63 <= z < 2 ^ 64 -> 0 <= n < 2 ^ 63 -> (z mod 2 ^ 64 =? n) = (z =? n).
Proof.
  intros Bz Bn. destruct (Z.eq_dec z n) as [->|D]; [rewrite Z.mod_small by lia; lia|]. replace (z =? n) with false by lia.
  destruct (Z_lt_ge_dec z 0) as [Hlt|Hge].
  - replace (z mod 2 ^ 64) with (z + 2 ^ 64); [lia|]. apply Zmod_unique with (q := -1); lia.
  - rewrite Z.mod_small by lia. lia.
Qed.
Section Block.
Variables (k : prefix_kind) (a x : acc) (kind : txt) (e : iexp) (ty : txt) (z : Z) (l : list Z) (m r : Z).
Hypothesis Er : real_code k x = SAuto kind (T "realValue") e.
Hypothesis Hr : forall st, seqs st x = Some l -> ival st e size_t r.
Hypothesis Br : 0 <= r < 2 ^ 63.
Hypothesis Hz : cpp_holds ty z.
Hypothesis Lm : limit ty m.
Definition before (st st' : istate) : Prop :=
  nums st' = nums st /\ seqs st' = seqs st /\ flags st' = flags st /\
  first_named (T "maxAllowedValue") (vars st') = Some (size_t, Z.min m r) /\ first_named (T "realValue") (vars st') = Some (size_t, r).
(** the part in front of the adjustment *)
Lemma block_start st rest : nums st a = Some (ty, z) -> seqs st x = Some l -> z <> r ->
  exists st', before st st' /\ forall st'' o, exec_all st' rest st'' o ->
    exec_all st ([SAuto (T "auto") (T "expectedValue") (ICast (IGet a)); real_code k x;
     SIf (BEq (IVar (T "expectedValue")) (IVar (T "realValue"))) [SBreak];
     SUsing (T "PrefixValueType") (IGet a);
     SAuto (T "static const auto") (T "MaxPrefixValue") (ICast (IMax (T "PrefixValueType")));
     SAuto (T "auto") (T "maxAllowedValue") (IMin (T "MaxPrefixValue") (T "realValue"))] ++ rest) st'' o.
Proof.
  intros Na Sx N. pose proof (limit_nonneg _ _ Lm) as Bm. pose proof (cpp_dom _ _ Hz) as Bz.
  set (st1 := add_var st (T "expectedValue") size_t (z mod 2 ^ 64)). set (st2 := add_var st1 (T "realValue") size_t r).
  set (st3 := add_type st2 (T "PrefixValueType") ty). set (st4 := add_var st3 (T "MaxPrefixValue") size_t (m mod 2 ^ 64)).
  set (st5 := add_var st4 (T "maxAllowedValue") size_t (Z.min (m mod 2 ^ 64) r)).
  assert (m mod 2 ^ 64 = m) as Em by (apply Z.mod_small; lia).
  exists st5. split; [repeat split; try reflexivity; cbn [st5 add_var vars]; rewrite Em; reflexivity|].
  intros st'' o X. cbn [app]. go; [apply exec_auto; apply ival_cast with (ty := ty); apply ival_get; exact Na|].
  rewrite Er. go; [apply exec_auto with (ty := size_t) (z := r); apply Hr; exact Sx|].
  go; [apply exec_else|].
  { eapply bval_as; [apply bval_eq; apply ival_var; reflexivity|]. rewrite (cast_eq z r Bz Br). lia. }
  go; [apply exec_using with (z := z); apply ival_get; exact Na|].
  go; [apply exec_auto with (ty := size_t) (z := m mod 2 ^ 64); apply ival_cast with (ty := ty); apply ival_max; [reflexivity|exact Lm]|].
  go; [apply exec_auto with (ty := size_t) (z := Z.min (m mod 2 ^ 64) r); apply ival_min; reflexivity|exact X].
Qed.
Lemma block_same st : nums st a = Some (ty, z) -> seqs st x = Some l -> z = r -> first_named (T "updated") (flags st) = Some false ->
  exists st', exec st (block_code k a x) st' Done /\ nums st' = nums st /\ seqs st' = seqs st /\ flags st' = flags st.
Proof.
  intros Na Sx E Fu. pose proof (cpp_dom _ _ Hz) as Bz.
  eexists. split; [|split; [|split]]; [apply exec_do_break| | |].
  - go; [apply exec_auto; apply ival_cast with (ty := ty); apply ival_get; exact Na|].
    rewrite Er. go; [apply exec_auto with (ty := size_t) (z := r); apply Hr; exact Sx|].
    apply exec_stop; [apply exec_if|discriminate].
    + eapply bval_as; [apply bval_eq; apply ival_var; reflexivity|]. rewrite (cast_eq z r Bz Br). lia.
    + apply exec_stop; [constructor|discriminate].
  - reflexivity.
  - reflexivity.
  - reflexivity.
Qed.
Variables (z' : Z) (l' : list Z).
Hypothesis Ha : forall st, seqs st x = Some l -> first_named (T "maxAllowedValue") (vars st) = Some (size_t, Z.min m r) ->
  first_named (T "realValue") (vars st) = Some (size_t, r) ->
  exists st', exec st (adjust_code k x) st' Done /\ nums st' = nums st /\ seqs st' x = Some l' /\ (forall y, y <> x -> seqs st' y = seqs st y) /\
    flags st' = flags st /\ first_named (prefix_value k) (vars st') = Some (size_t, z').
Hypothesis Bz' : 0 <= z' <= m.
Hypothesis Hs : z = r -> z' = z /\ l' = l.
Lemma block_run : runs (list_code [block_code k a x]) a x ty z l z' l' (negb (z =? r)).
Proof.
  apply run_all. intros st Na Sx. set (st0 := set_flag st (T "updated") false).
  assert (exists st', exec st0 (block_code k a x) st' Done /\ nums st' a = Some (ty, z') /\ seqs st' x = Some l' /\
    (forall b, b <> a -> nums st' b = nums st b) /\ (forall y, y <> x -> seqs st' y = seqs st y) /\
    first_named (T "updated") (flags st') = Some (negb (z =? r))) as (st' & E & A & B & C & D & F).
  { destruct (Z.eq_dec z r) as [Q|N].
    - destruct (block_same st0 Na Sx Q eq_refl) as (st' & E & A & B & C). destruct (Hs Q) as [-> ->]. exists st'. split; [exact E|].
      rewrite A, B, C. repeat split; auto. rewrite Q, Z.eqb_refl. reflexivity.
    - destruct (block_start st0 [adjust_code k x; SSet a (prefix_value k); SFlag [] (T "updated") true] Na Sx N) as (st1 & (B1 & B2 & B3 & B4 & B5) & Go).
      destruct (Ha st1) as (st2 & A1 & A2 & A3 & A4 & A5 & A6); [rewrite B2; exact Sx|exact B4|exact B5|].
      assert (exec_all st1 [adjust_code k x; SSet a (prefix_value k); SFlag [] (T "updated") true] (set_flag (set_num st2 a (ty, z')) (T "updated") true) Done) as X.
      { go; [exact A1|]. go; [apply exec_set with (z := z) (x := z') (y := z'); [rewrite A2, B1; exact Na|exact A6|]|].
        - apply converted_self. destruct Lm as [Lm1 _]. apply holds_below with (m := m); auto.
        - go; [apply exec_flag|constructor]. }
      exists (set_flag (set_num st2 a (ty, z')) (T "updated") true). split; [apply exec_do; exact (Go _ _ X)|].
      cbn [set_flag set_num nums seqs flags]. split; [apply upd_same|]. split; [exact A3|]. split; [|split].
      + intros b Hb. rewrite upd_other by exact Hb. rewrite A2, B1. reflexivity.
      + intros y Hy. rewrite A4 by exact Hy. rewrite B2. reflexivity.
      + replace (z =? r) with false by lia. reflexivity. }
  exists st'. split; [|auto]. unfold list_code. cbn [app]. go; [apply exec_flag|]. go; [exact E|]. apply exec_stop; [|discriminate].
  constructor. exact F.
Qed.
End Block.

Lemma count_run a x ty z l m : cpp_holds ty z -> elements l -> limit ty m ->
  let n := Z.of_nat (length l) in let l' := firstn (Z.to_nat (Z.min m n)) l in
  runs (list_code [block_code PCount a x]) a x ty z l (Z.of_nat (length l')) l' (negb (z =? n)).
Proof.
  intros Hz (_ & _ & Hn) Lm n l'. pose proof (limit_nonneg _ _ Lm) as Bm.
  assert (length l' = Z.to_nat (Z.min m n)) as Ll by (unfold l'; rewrite firstn_length; lia).
  apply (block_run PCount a x (T "auto") (ISize x) ty z l m n); auto; try reflexivity.
  - intros st Sx. apply ival_size. exact Sx.
  - lia.
  - intros st Sx V1 V2. cbn [adjust_code prefix_value].
    assert (bval st (BLess (T "maxAllowedValue") (T "realValue")) (Z.min m n <? n)) as B by (apply bval_less; assumption).
    destruct (Z.min m n <? n) eqn:Lt.
    + exists (set_seq st x l'). split; [|split; [reflexivity|split; [apply upd_same|split; [intros; now apply upd_other|split; [reflexivity|]]]]].
      * apply exec_if; [exact B|]. go; [|constructor]. apply exec_resize; [exact Sx|exact V1|lia].
      * cbn [set_seq vars]. rewrite Ll, Z2Nat.id by lia. exact V1.
    + assert (l' = l) as El by (unfold l'; apply firstn_all2; lia). exists st. rewrite El in *. split; [now apply exec_else|]. repeat split; auto.
      rewrite Ll, Z2Nat.id by lia. exact V1.
  - lia.
  - intro E. pose proof (proj2 Lm _ Hz) as Zm. assert (l' = l) as El by (unfold l'; apply firstn_all2; lia). rewrite El. split; [lia|reflexivity].
Qed.

(** elements taken off the end *)
Lemma sum_app l l' : sum (l ++ l') = sum l + sum l'.
Proof. induction l as [|n l IH]; [reflexivity|]. change (n + sum (l ++ l') = n + sum l + sum l'). lia. Qed.
Lemma sum_nonneg l : Forall (fun n => 0 <= n) l -> 0 <= sum l.
Proof. induction 1; cbn; [lia|]. change (fold_right Z.add 0 l) with (sum l). lia. Qed.
Lemma pop_run x b : forall l st, seqs st x = Some l -> Forall (fun n => 0 <= n) l -> sum l < 2 ^ 64 -> 0 <= b ->
  first_named (T "maxAllowedValue") (vars st) = Some (size_t, b) -> first_named (T "realValue") (vars st) = Some (size_t, sum l) ->
  exists st' l', exec st (SWhile (BLess (T "maxAllowedValue") (T "realValue")) (pop_code x)) st' Done /\ nums st' = nums st /\ seqs st' x = Some l' /\
    (forall y, y <> x -> seqs st' y = seqs st y) /\ flags st' = flags st /\ first_named (T "realValue") (vars st') = Some (size_t, sum l') /\ fitting b l l'.
Proof.
  induction l as [|n l IH] using rev_ind; intros st Sx Fl Bl Bb V1 V2.
  - exists st, []. split; [apply exec_while_end|]; [eapply bval_as; [apply bval_less; eassumption|cbn; lia]|].
    repeat split; auto; [now exists []|]. intros p r E _. symmetry in E. apply app_eq_nil in E as [-> _]. auto.
  - destruct (b <? sum (l ++ [n])) eqn:Lt.
    + apply Forall_app in Fl as [Fl Fn]. inversion Fn as [|? ? Hn _]; subst. pose proof (sum_nonneg _ Fl) as S0.
      rewrite sum_app in *. cbn [sum fold_right] in *.
      set (st1 := add_var st (T "elemLen") size_t n). set (st2 := set_seq st1 x l).
      set (st3 := set_var st2 (T "realValue") ((sum l + (n + 0) - n) mod 2 ^ 64)).
      assert ((sum l + (n + 0) - n) mod 2 ^ 64 = sum l) as Es by (rewrite Z.mod_small; lia).
      assert (exec_all st (pop_code x) st3 Done) as X.
      { go; [apply exec_auto; apply ival_back with (l := l); exact Sx|]. go; [apply exec_pop with (n := n); exact Sx|].
        go; [|constructor]. apply exec_minus; [exact V2|reflexivity]. }
      destruct (IH st3) as (st' & l' & E & A & B & C & D & F & (r & G) & H1 & H2); auto.
      * cbn [st3 set_var st2 set_seq seqs]. apply upd_same.
      * lia.
      * cbn [st3 set_var st2 set_seq st1 add_var vars]. rewrite Es. reflexivity.
      * exists st', l'. split; [|split; [exact A|split; [exact B|split; [|split; [exact D|split; [exact F|]]]]]].
        -- eapply exec_while; [|exact X|exact E]. eapply bval_as; [apply bval_less; eassumption|lia].
        -- intros y Hy. rewrite C by exact Hy. cbn [st3 set_var st2 set_seq seqs]. now apply upd_other.
        -- split; [exists (r ++ [n]); rewrite G; now rewrite app_assoc|]. split; [exact H1|].
           intros p q Ep Sp. destruct q as [|c q] using rev_ind.
           ++ rewrite app_nil_r in Ep. subst p. rewrite sum_app in Sp. cbn [sum fold_right] in Sp. lia.
           ++ rewrite app_assoc in Ep. apply app_inj_tail in Ep as [Ep _]. apply (H2 p q Ep Sp).
    + exists st, (l ++ [n]). split; [apply exec_while_end|]; [eapply bval_as; [apply bval_less; eassumption|exact Lt]|].
      repeat split; auto; [exists []; now rewrite app_nil_r|lia|]. intros p r E _. rewrite E, app_length. lia.
Qed.
Lemma length_run a x ty z l m : cpp_holds ty z -> elements l -> limit ty m ->
  exists l', fitting m l l' /\ runs (list_code [block_code PLength a x]) a x ty z l (sum l') l' (negb (z =? sum l)).
Proof.
  intros Hz (Fl & Hs & _) Lm. pose proof (limit_nonneg _ _ Lm) as Bm. pose proof (sum_nonneg _ Fl) as S0. pose proof (proj2 Lm _ Hz) as Zm.
  assert (exists l', fitting (Z.min m (sum l)) l l') as (l' & Hf).
  { pose (st := mkI (fun _ => None) (fun _ => Some l) [(T "maxAllowedValue", (size_t, Z.min m (sum l))); (T "realValue", (size_t, sum l))] [] []).
    destruct (pop_run x (Z.min m (sum l)) l st) as (? & l' & ? & ? & ? & ? & ? & ? & H); auto; try reflexivity; try lia. eauto. }
  assert (forall l1 l2, fitting (Z.min m (sum l)) l l1 -> fitting (Z.min m (sum l)) l l2 -> l1 = l2) as Uq.
  { intros l1 l2 ((r1 & E1) & H1 & G1) ((r2 & E2) & H2 & G2). pose proof (G1 _ _ E2 H2). pose proof (G2 _ _ E1 H1).
    rewrite E1 in E2. clear - E2 H H0. assert (length l1 = length l2) by lia. revert l2 E2 H H0 H1. induction l1 as [|c l1 IH]; intros [|d l2]; cbn; intros; try discriminate; [reflexivity|].
    injection E2 as -> E2. f_equal. apply IH; auto; lia. }
  exists l'. split.
  - destruct Hf as ((r & E) & H & G). split; [now exists r|]. split; [lia|]. intros p q Ep Sp. apply (G p q Ep).
    rewrite Ep, sum_app. rewrite Ep in Fl. apply Forall_app in Fl as [_ Fq]. pose proof (sum_nonneg _ Fq). lia.
  - apply (block_run PLength a x (T "auto") (ILength x) ty z l m (sum l)); auto; try reflexivity.
    + intros st Sx. apply ival_length. exact Sx.
    + intros st Sx V1 V2. destruct (pop_run x (Z.min m (sum l)) l st) as (st' & l2 & E & A & B & C & D & F & H); auto; try lia.
      rewrite (Uq _ _ H Hf) in *. exists st'. auto 8.
    + destruct Hf as ((r & E) & H & _). split; [|lia]. rewrite E in Fl. apply Forall_app in Fl as [Fl' _]. now apply sum_nonneg.
    + intro E. assert (l' = l) as ->; [|auto]. apply (Uq _ _ Hf). split; [exists []; now rewrite app_nil_r|]. split; [lia|].
      intros p q Ep _. rewrite Ep, app_length. lia.
Qed.
Lemma elem_fails a x ty z n l m : cpp_holds ty z -> 0 <= n < 2 ^ 63 -> limit ty m -> z <> n ->
  fails (list_code [block_code PElemLength a x]) a x ty z (n :: l).
Proof.
  intros Hz Hn Lm N st Na Sx.
  assert (exists st', exec_all st (list_code [block_code PElemLength a x]) st' Failed) as (st' & E);
    [|split; [eauto|]; intros st2 o2 E2; destruct (exec_all_det _ _ _ _ E _ _ E2) as [_ <-]; reflexivity].
  set (st0 := set_flag st (T "updated") false).
  destruct (block_start PElemLength a x (T "std::size_t") (IFirst x) ty z (n :: l) m n eq_refl) with (st := st0)
    (rest := [adjust_code PElemLength x; SSet a (prefix_value PElemLength); SFlag [] (T "updated") true]) as (st1 & (B1 & B2 & B3 & B4 & B5) & Go); auto.
  - intros s Ss. apply ival_first with (l := l). exact Ss.
  - exists st1. unfold list_code. cbn [app]. go; [apply exec_flag|]. apply exec_stop; [|discriminate]. apply exec_do_fails. apply Go.
    apply exec_stop; [|discriminate]. apply exec_assert_fails. eapply bval_as; [apply bval_first with (l := l); [rewrite B2; exact Sx|exact B4]|lia].
Qed.
Lemma elem_empty a x ty z m : cpp_holds ty z -> limit ty m ->
  runs (list_code [block_code PElemLength a x]) a x ty z [] 0 [] (negb (z =? 0)).
Proof.
  intros Hz Lm. pose proof (limit_nonneg _ _ Lm) as Bm.
  apply (block_run PElemLength a x (T "std::size_t") (IFirst x) ty z [] m 0); auto; try reflexivity; try lia.
  - intros st Sx. apply ival_first_empty. exact Sx.
  - intros st Sx V1 V2. exists st. repeat split; auto.
    + apply exec_assert. eapply bval_empty; [exact Sx|exact V1].
    + cbn [prefix_value]. change L with T. rewrite V1. apply (f_equal Some), (f_equal (pair size_t)). lia.
Qed.

(** ** The generated functions *)
Lemma code_tokens l : tokens (print_code l) = flat_map (fun s => tokens (print_s s)) l.
Proof. induction l as [|s l IH]; [reflexivity|]. cbn [print_code flat_map]. rewrite <- IH. apply tokens_nl. Qed.
Lemma refresh_none ge up sibs x k : refresh_one ge up sibs x [] k = Ok [].
Proof. reflexivity. Qed.
Lemma final_tokens t b : tokens t = tokens (print_s b) ->
  tokens (substituted (fun k => lookup k [(L "UPDATES", t)]) rl_pieces) = tokens (print_code (list_code [b])).
Proof.
  intro Tt. unfold list_code. rewrite code_tokens. unfold rl_pieces. cbn [substituted]. look. rewrite tokens_l by reflexivity. rewrite (tokens_r t) by reflexivity.
  cbn [app flat_map]. rewrite <- Tt. clear Tt. rewrite !app_nil_r. generalize (tokens t). clear t b. intro l.
  apply (f_equal2 (@app _)); [vm_compute; reflexivity|]. apply (f_equal (app _)). vm_compute. reflexivity.
Qed.
Section Refresh.
Variables (ge : gen_env) (up : list velem) (sibs : list field) (env : list (txt * dval)) (f : field) (own : bool) (w : dval).
Hypothesis Te : typed_env ge up sibs env.
Hypothesis Ac : accessible (VMembers env).
Hypothesis Sw : sequence w.
Hypothesis Ff : find_named (f_name f) sibs = Some f.
Hypothesis Wf : word (f_name f).
Hypothesis Fw : from env [f_name f] own w.
Lemma own_access : exists x, obj env x w /\ field_access ge up f [] (access_prefix f) = Ok (print_acc x).
Proof.
  assert (comparable w) as Cw by (destruct w; try contradiction; exact I).
  destruct (locate ge up sibs env _ _ _ Te Ac Fw ltac:(constructor; [exact Wf|constructor]) Cw) as (g & rest & Eg & [x cs bs Ox _ _ _ _ Ex]).
  unfold prefix_sibling in Eg. cbn [join] in Eg.
  assert (first_seg (f_name f) = (f_name f, None)) as E1.
  { pose proof (word_seg (f_name f) [] Wf) as X. cbn [join] in X. exact X. }
  rewrite E1, Ff in Eg. cbn [option_map rest_or_nil] in Eg. injection Eg as <- <-. eauto.
Qed.
Lemma path_nonempty s path : path_text s path -> is_nil s = false.
Proof. intros (-> & N & W). destruct path as [|n q]; [congruence|]. inversion W; subst. now apply word_join. Qed.
Lemma seq_refresh s path pres ty names z : prefixes f = [(s, T "forceReadLength")] -> path_text s path -> from env path pres (VNum ty names z) ->
  exists out a x, refresh_body ge up sibs f = Ok out /\ obj env a (VNum ty names z) /\ obj env x w /\ tokens out = tokens (print_code (len_code a x)).
Proof.
  intros Ep Pt Fr. pose proof (path_nonempty _ _ Pt) as Ns. destruct Pt as (Es & Np & Wp). destruct own_access as (x & Ox & Ex).
  destruct (locate ge up sibs env path pres _ Te Ac Fr Wp I) as (g & rest & Eg & [a cs bs Oa _ _ _ Ev Ea]). rewrite <- Es in Eg.
  assert (refresh_body ge up sibs f = refresh_seq ge up sibs f s) as ->.
  { destruct f; try discriminate Ep; cbn [prefixes refresh_body] in *; apply (f_equal (map fst)) in Ep; cbn [map fst] in Ep; congruence. }
  unfold refresh_seq. rewrite Ns, Eg, Ea, Ex, Ev. cbn [bind]. destruct (len_tokens a x) as (t & E & Tt). rewrite E. exists t, a, x. auto.
Qed.
Lemma one_refresh x s path pres ty names z k : path_text s path -> from env path pres (VNum ty names z) ->
  exists a t, refresh_one ge up sibs (print_acc x) s k = Ok [t] /\ obj env a (VNum ty names z) /\ tokens t = tokens (print_s (block_code k a x)).
Proof.
  intros Pt Fr. pose proof (path_nonempty _ _ Pt) as Ns. destruct Pt as (Es & Np & Wp).
  destruct (locate ge up sibs env path pres _ Te Ac Fr Wp I) as (g & rest & Eg & [a cs bs Oa _ _ _ Ev Ea]). rewrite <- Es in Eg.
  destruct (block_tokens k a x) as (r & d & t & Er & Ed & Et & Tt). exists a, t. split; [|auto].
  unfold refresh_one. rewrite Ns, Er. cbn [bind]. rewrite Ed. cbn [bind]. rewrite Eg, Ea, Ev. cbn [bind]. rewrite Et. reflexivity.
Qed.
Definition position (k : prefix_kind) (s : txt) : list txt :=
  match k with PCount => [s; []; []] | PLength => [[]; s; []] | PElemLength => [[]; []; s] end.
Lemma list_refresh k s path pres ty names z : map fst (prefixes f) = position k s -> path_text s path -> from env path pres (VNum ty names z) ->
  exists out a x, refresh_body ge up sibs f = Ok out /\ obj env a (VNum ty names z) /\ obj env x w /\
    tokens out = tokens (print_code (list_code [block_code k a x])).
Proof.
  intros Ep Pt Fr. destruct own_access as (x & Ox & Ex). destruct (one_refresh x s path pres ty names z k Pt Fr) as (a & t & E & Oa & Tt).
  destruct (template_tokens 20 _ rl_pieces [(L "UPDATES", t)] false rl_cut) as (u & Eu & Tu).
  exists u, a, x. split; [|split; [exact Oa|split; [exact Ox|]]].
  - destruct f as [| | | | | | | | c st elem cnt len elen term| | |]; try (destruct k; discriminate Ep). cbn [prefixes map fst] in Ep. cbn [refresh_body]. unfold refresh_list. rewrite Ex. cbn [bind].
    destruct k; cbn [position] in Ep; injection Ep as E1 E2 E3; rewrite E1, E2, E3.
    + rewrite E, !refresh_none. cbn [bind is_nil app genStrListToString]. rewrite app_nil_r. exact Eu.
    + rewrite E, !refresh_none. cbn [bind is_nil app genStrListToString]. rewrite app_nil_r. exact Eu.
    + rewrite E, !refresh_none. cbn [bind is_nil app genStrListToString]. rewrite app_nil_r. exact Eu.
  - rewrite Tu. apply final_tokens. exact Tt.
Qed.
End Refresh.
