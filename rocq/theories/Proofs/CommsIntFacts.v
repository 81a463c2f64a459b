(** Facts about the generated definition of integer fields. *)
From Coq Require Import Sorted ZifyBool.
From Verif.Model Require Import Base Common Units Field FieldCommon IntField GenUtil GenComms CommsInt.
From Verif.Spec Require Import Texts Ints IntSpec GenSpec CppSpec.
From Verif.Proofs Require Import BaseFacts CommonFacts IntFacts RangeFacts IntInv GenFacts.
Local Open Scope string_scope. Local Open Scope Z_scope. Local Open Scope list_scope.

(** ** Texts of constants *)
Definition const_char (c : ascii) : Prop := c <> newline /\ ~ In c (T ",<>() /#\").
Lemma digit_const base c v : base <= 16 -> is_digit base c v -> const_char c.
Proof.
  intros Hb [Hv H]. unfold const_char.
  assert (F : Forall const_char (T "0123456789abcdefABCDEF")).
  { repeat constructor; unfold const_char; cbn; intuition discriminate. }
  rewrite Forall_forall in F. apply F.
  destruct H as [H|H]; apply nth_error_In in H; cbn in H |- *; intuition.
Qed.
Lemma numeral_const base s v : base <= 16 -> numeral base s v -> Forall const_char s.
Proof.
  intros Hb N. induction N as [c v D|ds c n v N IH D].
  - constructor; [eapply digit_const; eauto|constructor].
  - apply Forall_app. split; [exact IH|]. constructor; [eapply digit_const; eauto|constructor].
Qed.
Lemma suffix_const s : In s [[]; T "U"; T "LL"; T "ULL"] -> Forall const_char s.
Proof.
  cbn. intros [<-|[<-|[<-|[<-|[]]]]]; repeat constructor; unfold const_char; cbn; intuition discriminate.
Qed.
Lemma literal_const s t v : literal s t v -> Forall const_char s.
Proof.
  intro H. destruct H as [d x l t v N Z0 C F|d x l t v N C F].
  - apply Forall_app. split; [eapply numeral_const; [|exact N]; lia|]. apply suffix_const. eapply candidates_suffix; eauto.
  - constructor; [unfold const_char; cbn; intuition discriminate|]. constructor; [unfold const_char; cbn; intuition discriminate|].
    apply Forall_app. split; [eapply numeral_const; [|exact N]; lia|]. apply suffix_const. eapply candidates_suffix; eauto.
Qed.
Lemma constant_const s v : constant s v -> Forall const_char s.
Proof.
  intro H. destruct H as [s t v L0|s t v L0 _ _|s t v L0 _]; apply literal_const in L0; auto;
    (constructor; [unfold const_char; cbn; intuition discriminate|exact L0]).
Qed.
Lemma constant_no c s v : constant s v -> In c (T ",<>() /#\") -> ~ In c s.
Proof.
  intros H I J. apply constant_const in H. rewrite Forall_forall in H. exact (proj2 (H _ J) I).
Qed.
Lemma cut_unique (c : ascii) a : forall b s t, ~ In c a -> ~ In c b -> a ++ c :: s = b ++ c :: t -> a = b /\ s = t.
Proof.
  induction a as [|x a IH]; intros [|y b] s t Ha Hb E; cbn in *.
  - injection E; auto.
  - injection E as -> _. exfalso. apply Hb. now left.
  - injection E as <- _. exfalso. apply Ha. now left.
  - injection E as <- E. apply IH in E as [-> ->]; tauto.
Qed.
Lemma opt_inj n m a b : ~ In "<"%char n -> ~ In "<"%char m -> an_option n a = an_option m b ->
  n = m /\ join (T ", ") a = join (T ", ") b.
Proof.
  unfold an_option. intros Hn Hm E. apply app_inv_head in E. cbn [T list_ascii_of_string app] in E.
  apply cut_unique in E as [-> E]; auto. split; [reflexivity|]. now apply app_inv_tail in E.
Qed.
Lemma join2_inj a b c d : ~ In ","%char a -> ~ In ","%char c -> join (T ", ") [a; b] = join (T ", ") [c; d] -> a = c /\ b = d.
Proof.
  intros Ha Hc E. cbn in E. apply cut_unique in E as [-> E]; auto. injection E as E. auto.
Qed.
Lemma join12 a c d : ~ In ","%char a -> join (T ", ") [a] <> join (T ", ") [c; d].
Proof. intros Ha E. cbn in E. apply Ha. rewrite E. apply in_app_iff. right. now left. Qed.
Ltac no_lt := cbn; intuition discriminate.

Lemma Ok_inj {A} (x y : A) : Ok x = Ok y -> x = y.
Proof. now intros [= ->]. Qed.

(** ** Adding options *)
Lemma in_add x v l : In x (genAddToStrList v l) <-> x = v \/ In x l.
Proof.
  unfold genAddToStrList. destruct (mem_str v l) eqn:E.
  - apply mem_str_In in E. split; [auto|]. intros [-> |H]; auto.
  - rewrite in_app_iff. cbn. intuition.
Qed.
Lemma in_add_if x b v l : In x (add_if b v l) <-> (b = true /\ x = v) \/ In x l.
Proof. unfold add_if. destruct b; [rewrite in_add; intuition|intuition discriminate]. Qed.

Lemma accepts_restricts o v : accepts o v -> restricts o.
Proof.
  intro H. right. destruct H; eexists _, _; (split; [reflexivity|cbn; tauto]).
Qed.
Definition neutral (o : txt) : Prop := ~ restricts o.
Lemma base_valid_add x l v : neutral x -> base_valid (genAddToStrList x l) v <-> base_valid l v.
Proof.
  intros N. unfold base_valid. split; intros [(o & I & A)|F].
  - left. apply in_add in I as [-> |I]; [|eauto]. exfalso. apply N. eapply accepts_restricts; eauto.
  - right. intros o I. apply F. apply in_add. auto.
  - left. exists o. split; [apply in_add; auto|exact A].
  - right. intros o I. apply in_add in I as [-> |I]; auto.
Qed.
Lemma base_valid_add_if b x l v : neutral x -> base_valid (add_if b x l) v <-> base_valid l v.
Proof. intros N. unfold add_if. destruct b; [now apply base_valid_add|tauto]. Qed.
(** an option whose name does not begin with "Valid" or "Invalid" *)
Ltac neutral_tac :=
  let E := fresh in let n := fresh in let a := fresh in let I := fresh in
  intros [E|(n & a & E & I)]; [discriminate E|];
  cbn in I; destruct I as [<-|[<-|[<-|[<-|[]]]]]; discriminate E.

(** ** A range as an option *)
Lemma to_u64_range z : 0 <= to_u64 z < two64.
Proof. unfold to_u64. apply Z.mod_pos_bound. reflexivity. Qed.
Lemma constant_signed v : int_min < v <= int_max -> exists s, genNumToStringS v = Ok s /\ constant s v.
Proof.
  intros Hv. unfold int_min, int_max in Hv. unfold genNumToStringS.
  destruct ((-2147483648 <=? v) && (v <=? 2147483647)) eqn:E1.
  { eexists. split; [reflexivity|]. apply constant_signed_dec. lia. }
  destruct (0 <? v) eqn:E2.
  { eexists. split; [reflexivity|]. eapply const_lit, cpp_hex; [apply hex_str_spec; unfold two64; lia|right; right; left; now split|].
    apply first_here. unfold ctype_holds. cbn. lia. }
  rewrite s64_ok by (unfold int_min, int_max in *; lia). eexists. split; [reflexivity|]. apply constant_neg_hex. unfold int_min in *; lia.
Qed.
Lemma numS_spec v s : is64 v -> genNumToStringS v = Ok s -> constant s v.
Proof.
  intros Hv H. destruct (Z.eq_dec v int_min) as [-> |N].
  - vm_compute in H. discriminate.
  - destruct (constant_signed v) as (s' & E & C); [unfold is64, int_min, int_max in *; lia|]. congruence.
Qed.
Lemma numU_spec v : 0 <= v < two64 -> constant (genNumToStringU v 0) v.
Proof. intro H. apply constant_unsigned; lia. Qed.

Lemma restricts_opt name args :
  In name [T "ValidNumValue"; T "ValidNumValueRange"; T "ValidBigUnsignedNumValue"; T "ValidBigUnsignedNumValueRange"] ->
  restricts (an_option name args).
Proof. intro H. right. exists name, args. auto. Qed.
Lemma accepts_inv o v : accepts o v ->
  (exists a, o = an_option (T "ValidNumValue") [a] /\ constant a v) \/
  (exists a b x y, o = an_option (T "ValidNumValueRange") [a; b] /\ constant a x /\ constant b y /\ x <= v <= y) \/
  (exists a, o = an_option (T "ValidBigUnsignedNumValue") [a] /\ constant a v) \/
  (exists a b x y, o = an_option (T "ValidBigUnsignedNumValueRange") [a; b] /\ constant a x /\ constant b y /\ x <= v <= y).
Proof.
  intro H. destruct H as [a v C|a b x y v C D H|a v C H|a b x y v C D H _ _].
  - left. exists a. auto.
  - right; left. exists a, b, x, y. auto.
  - right; right; left. exists a. auto.
  - right; right; right. exists a, b, x, y. auto.
Qed.
Lemma accepts_one n a x v : In n [T "ValidNumValue"; T "ValidBigUnsignedNumValue"] -> constant a x -> accepts (an_option n [a]) v -> v = x.
Proof.
  intros I C A. assert (Hn : ~ In "<"%char n) by (cbn in I; destruct I as [<-|[<-|[]]]; no_lt).
  apply accepts_inv in A as [(a' & E & C')|[(a' & b' & x' & y' & E & C' & _)|[(a' & E & C')|(a' & b' & x' & y' & E & C' & _)]]];
    apply opt_inj in E as [En Ej]; try exact Hn; try no_lt.
  - cbn in Ej. subst a'. eapply constant_det; eauto.
  - exfalso. revert Ej. apply join12. eapply constant_no; [exact C|cbn; tauto].
  - cbn in Ej. subst a'. eapply constant_det; eauto.
  - exfalso. revert Ej. apply join12. eapply constant_no; [exact C|cbn; tauto].
Qed.
Lemma accepts_two n a b x y v : In n [T "ValidNumValueRange"; T "ValidBigUnsignedNumValueRange"] -> constant a x -> constant b y ->
  accepts (an_option n [a; b]) v -> x <= v <= y.
Proof.
  intros I C D A. assert (Hn : ~ In "<"%char n) by (cbn in I; destruct I as [<-|[<-|[]]]; no_lt).
  apply accepts_inv in A as [(a' & E & C')|[(a' & b' & x' & y' & E & C' & D' & H)|[(a' & E & C')|(a' & b' & x' & y' & E & C' & D' & H)]]];
    apply opt_inj in E as [En Ej]; try exact Hn; try no_lt.
  - exfalso. symmetry in Ej. revert Ej. apply join12. eapply constant_no; [exact C'|cbn; tauto].
  - apply join2_inj in Ej as [-> ->]; try (eapply constant_no; [eassumption|cbn; tauto]).
    rewrite (constant_det _ _ _ C C'), (constant_det _ _ _ D D'). exact H.
  - exfalso. symmetry in Ej. revert Ej. apply join12. eapply constant_no; [exact C'|cbn; tauto].
  - apply join2_inj in Ej as [-> ->]; try (eapply constant_no; [eassumption|cbn; tauto]).
    rewrite (constant_det _ _ _ C C'), (constant_det _ _ _ D D'). exact H.
Qed.
Definition as_big (big : bool) (r : vrange) : bool := big && negb (in_intmax (r_min r) && in_intmax (r_max r)).
Definition covers (u : bool) (r : vrange) (v : Z) : Prop := uns u (r_min r) <= v <= uns u (r_max r).
Lemma opt1_text n a : copt ((n ++ L "<") ++ a ++ L ">") = an_option n [a].
Proof. unfold an_option, copt. cbn [join]. rewrite <- !app_assoc. reflexivity. Qed.
Lemma opt2_text n a b : copt ((n ++ L "<") ++ a ++ L ", " ++ b ++ L ">") = an_option n [a; b].
Proof. unfold an_option, copt. cbn [join]. rewrite <- !app_assoc. reflexivity. Qed.
Lemma range_opt_spec big r o v : r64 r -> range_opt big r = Ok o ->
  restricts o /\ (accepts o v <-> covers (as_big big r) r v).
Proof.
  intros [R1 R2] H. unfold range_opt in H. unfold covers, as_big.
  destruct (big && negb (in_intmax (r_min r) && in_intmax (r_max r))) eqn:B.
  - pose proof (numU_spec _ (to_u64_range (r_min r))) as C1. pose proof (numU_spec _ (to_u64_range (r_max r))) as C2.
    pose proof (to_u64_range (r_min r)) as U1. pose proof (to_u64_range (r_max r)) as U2. cbn [uns]. unfold two64 in U1, U2.
    destruct (r_min r =? r_max r) eqn:E.
    + assert (EQ : r_min r = r_max r) by lia. rewrite <- EQ in *.
      apply Ok_inj in H. rewrite <- H. change (L "ValidBigUnsignedNumValue<") with (T "ValidBigUnsignedNumValue" ++ L "<"). rewrite opt1_text.
      split; [apply restricts_opt; cbn; tauto|]. split; intros A.
      * apply (accepts_one (T "ValidBigUnsignedNumValue") _ _ _ ltac:(cbn; tauto) C1) in A. lia.
      * assert (v = to_u64 (r_min r)) by lia. subst v. constructor; [exact C1|lia].
    + apply Ok_inj in H. rewrite <- H. change (L "ValidBigUnsignedNumValueRange<") with (T "ValidBigUnsignedNumValueRange" ++ L "<"). rewrite opt2_text.
      split; [apply restricts_opt; cbn; tauto|]. split; intros A.
      * apply (accepts_two (T "ValidBigUnsignedNumValueRange") _ _ _ _ _ ltac:(cbn; tauto) C1 C2) in A. lia.
      * econstructor; [exact C1|exact C2|lia|lia|lia].
  - cbn [uns]. destruct (r_min r =? r_max r) eqn:E.
    + assert (EQ : r_min r = r_max r) by lia. rewrite <- EQ in *. apply bind_Ok in H as (a & Ha & H). apply Ok_inj in H. rewrite <- H.
      pose proof (numS_spec _ _ R1 Ha) as C1.
      change (L "ValidNumValue<") with (T "ValidNumValue" ++ L "<"). rewrite opt1_text.
      split; [apply restricts_opt; cbn; tauto|]. split; intros A.
      * apply (accepts_one (T "ValidNumValue") _ _ _ ltac:(cbn; tauto) C1) in A. lia.
      * assert (v = r_min r) by lia. subst v. constructor. exact C1.
    + apply bind_Ok in H as (a & Ha & H). apply bind_Ok in H as (b & Hb & H). apply Ok_inj in H. rewrite <- H.
      pose proof (numS_spec _ _ R1 Ha) as C1. pose proof (numS_spec _ _ R2 Hb) as C2.
      change (L "ValidNumValueRange<") with (T "ValidNumValueRange" ++ L "<"). rewrite opt2_text.
      split; [apply restricts_opt; cbn; tauto|]. split; intros A.
      * apply (accepts_two (T "ValidNumValueRange") _ _ _ _ _ ltac:(cbn; tauto) C1 C2) in A. lia.
      * econstructor; [exact C1|exact C2|lia].
Qed.

(** ** The loop over the ranges *)
Definition taken (ge : gen_env) (check : bool) (r : vrange) : bool :=
  genDoesElementExist (ge_ver ge) (r_since r) (r_depr r) (negb check) &&
  negb (check && genIsElementOptional (ge_ver ge) (r_since r) (r_depr r) false).
Definition postponed (ge : gen_env) (check : bool) (r : vrange) : bool :=
  genDoesElementExist (ge_ver ge) (r_since r) (r_depr r) (negb check) &&
  (check && genIsElementOptional (ge_ver ge) (r_since r) (r_depr r) false).
Lemma ranges_fold ge big check l : forall o s a o' s' a',
  foldM (ranges_step ge big check) l (o, s, a) = Ok (o', s', a') ->
  (forall x, In x o' <-> In x o \/ exists r, In r l /\ taken ge check r = true /\ range_opt big r = Ok x) /\
  (forall r, In r l -> taken ge check r = true -> exists x, range_opt big r = Ok x) /\
  s' = s || existsb (postponed ge check) l /\ a' = a || existsb (taken ge check) l.
Proof.
  induction l as [|r l IH]; intros o s a o' s' a' H; cbn [foldM] in H.
  - apply Ok_inj in H. injection H as -> -> ->. cbn [existsb]. rewrite !orb_false_r.
    repeat split; auto; [|intros ? []]. intros [H|(r & [] & _)]; exact H.
  - apply bind_Ok in H as ([[o1 s1] a1] & Hs & H). unfold ranges_step in Hs. cbn [existsb].
    destruct (genDoesElementExist (ge_ver ge) (r_since r) (r_depr r) (negb check)) eqn:E1; cbn [negb] in Hs.
    2: { apply Ok_inj in Hs. injection Hs as <- <- <-. apply IH in H as (H1 & H2 & H3 & H4).
         assert (Ht : taken ge check r = false) by (unfold taken; now rewrite E1).
         assert (Hp : postponed ge check r = false) by (unfold postponed; now rewrite E1). rewrite Ht, Hp. cbn [orb].
         split; [|split; [|split; assumption]].
         - intro x. rewrite H1. split; intros [K|(r0 & K1 & K2 & K3)]; auto.
           + right. exists r0. cbn. auto.
           + destruct K1 as [<-|K1]; [congruence|]. right. eauto.
         - intros r0 [<-|K1] K2; [congruence|eauto]. }
    destruct (check && genIsElementOptional (ge_ver ge) (r_since r) (r_depr r) false) eqn:E2.
    { apply Ok_inj in Hs. injection Hs as <- <- <-. apply IH in H as (H1 & H2 & H3 & H4).
      assert (Ht : taken ge check r = false) by (unfold taken; now rewrite E1, E2).
      assert (Hp : postponed ge check r = true) by (unfold postponed; now rewrite E1, E2). rewrite Ht, Hp. cbn [orb].
      split; [|split; [|split; [|assumption]]].
      - intro x. rewrite H1. split; intros [K|(r0 & K1 & K2 & K3)]; auto.
        + right. exists r0. cbn. auto.
        + destruct K1 as [<-|K1]; [congruence|]. right. eauto.
      - intros r0 [<-|K1] K2; [congruence|eauto].
      - rewrite H3. destruct s; reflexivity. }
    apply bind_Ok in Hs as (x & Hx & Hs). apply Ok_inj in Hs. injection Hs as <- <- <-. apply IH in H as (H1 & H2 & H3 & H4).
    assert (Ht : taken ge check r = true) by (unfold taken; now rewrite E1, E2).
    assert (Hp : postponed ge check r = false) by (unfold postponed; now rewrite E1, E2). rewrite Ht, Hp. cbn [orb].
    split; [|split; [|split; [assumption|]]].
    + intro y. rewrite H1, in_add. split.
      * intros [[-> |K]|(r0 & K1 & K2 & K3)]; auto; right; [exists r; cbn; auto|exists r0; cbn; auto].
      * intros [K|(r0 & [<-|K1] & K2 & K3)]; auto; [left; left; congruence|right; eauto].
    + intros r0 [<-|K1] K2; eauto.
    + rewrite H4. destruct a; reflexivity.
Qed.

Lemma neutral_storage : neutral (copt (L "VersionStorage")).
Proof. neutral_tac. Qed.
(** what the options about ranges accept *)
Lemma add_ranges_valid ge i o o' v : add_ranges_opt ge i o = Ok o' -> Forall neutral o ->
  exists l, (if valid_check_version ge i then l = i_ranges i else unify (gen_big_unsigned i) (i_ranges i) = Ok l) /\
  (Forall r64 l ->
   (base_valid o' v <->
    (exists r, In r l /\ taken ge (valid_check_version ge i) r = true /\ covers (as_big (gen_big_unsigned i) r) r v) \/
    Forall (fun r => genDoesElementExist (ge_ver ge) (r_since r) (r_depr r) (negb (valid_check_version ge i)) = false) l)).
Proof.
  intros H N. unfold add_ranges_opt in H. destruct (i_ranges i) as [|r0 rs] eqn:Er.
  { apply Ok_inj in H. subst o'. exists []. split; [destruct (valid_check_version ge i); reflexivity|]. intros _. split; [right; constructor|].
    intros _. right. rewrite Forall_forall in N. exact N. }
  rewrite <- Er in *. replace (is_nil (i_ranges i)) with false in H by (now rewrite Er). clear Er r0 rs.
  apply bind_Ok in H as (l & Hl & H). apply bind_Ok in H as ([[o1 s1] a1] & Hf & H). apply Ok_inj in H.
  exists l. split; [destruct (valid_check_version ge i); [now apply Ok_inj in Hl|exact Hl]|]. intros R64.
  apply ranges_fold in Hf as (F1 & F2 & F3 & F4). cbn [orb] in F3, F4. set (check := valid_check_version ge i) in *. set (big := gen_big_unsigned i) in *.
  rewrite Forall_forall in R64, N.
  assert (B1 : (exists x, In x o1 /\ accepts x v) <-> exists r, In r l /\ taken ge check r = true /\ covers (as_big big r) r v).
  { split.
    - intros (x & Ix & A). apply F1 in Ix as [Ix|(r & K1 & K2 & K3)]; [exfalso; apply (N _ Ix); eapply accepts_restricts; eauto|].
      exists r. split; [exact K1|split; [exact K2|]]. now apply (range_opt_spec _ _ _ v (R64 _ K1) K3).
    - intros (r & K1 & K2 & K3). destruct (F2 _ K1 K2) as [x Hx]. exists x. split; [apply F1; eauto|].
      now apply (range_opt_spec _ _ _ v (R64 _ K1) Hx). }
  assert (B2 : a1 = true <-> exists x, In x o1 /\ restricts x).
  { rewrite F4, existsb_exists. split.
    - intros (r & K1 & K2). destruct (F2 _ K1 K2) as [x Hx]. exists x. split; [apply F1; eauto|]. now apply (range_opt_spec _ _ _ v (R64 _ K1) Hx).
    - intros (x & Ix & A). apply F1 in Ix as [Ix|(r & K1 & K2 & K3)]; [exfalso; exact (N _ Ix A)|eauto]. }
  assert (B3 : Forall (fun r => genDoesElementExist (ge_ver ge) (r_since r) (r_depr r) (negb check) = false) l <-> s1 = false /\ a1 = false).
  { rewrite F3, F4. rewrite Forall_forall. split.
    - intros K. split; apply not_true_is_false; rewrite existsb_exists; intros (r & K1 & K2);
        unfold postponed, taken in K2; rewrite (K _ K1) in K2; discriminate.
    - intros [K1 K2] r Ir. destruct (genDoesElementExist _ _ _ _) eqn:E; [|reflexivity]. exfalso.
      destruct (check && genIsElementOptional (ge_ver ge) (r_since r) (r_depr r) false) eqn:E2.
      + enough (existsb (postponed ge check) l = true) by congruence. apply existsb_exists. exists r. split; [exact Ir|]. unfold postponed. now rewrite E, E2.
      + enough (existsb (taken ge check) l = true) by congruence. apply existsb_exists. exists r. split; [exact Ir|]. unfold taken. now rewrite E, E2. }
  subst o'. destruct s1.
  - destruct a1.
    + rewrite base_valid_add by apply neutral_storage. unfold base_valid. rewrite B1, B3. split; intros [K|K]; auto; [|destruct K; discriminate].
      exfalso. destruct (proj1 B2 eq_refl) as (x & Ix & Rx). exact (K x Ix Rx).
    + rewrite B3. split; [|intros [K|[K _]]; [|discriminate]].
      * intros [(x & Ix & A)|K].
        -- left. apply B1. apply in_add in Ix as [-> |Ix].
           ++ exfalso. apply accepts_inv in A as [(a' & E & _)|[(a' & b' & x' & y' & E & _)|[(a' & E & _)|(a' & b' & x' & y' & E & _)]]]; discriminate E.
           ++ apply in_add in Ix as [-> |Ix]; [exfalso; apply neutral_storage; eapply accepts_restricts; eauto|eauto].
        -- exfalso. apply (K (copt (L "InvalidByDefault"))); [apply in_add; auto|left; reflexivity].
      * left. apply B1 in K as (x & Ix & A). exists x. split; [apply in_add; right; apply in_add; auto|exact A].
  - rewrite B3. unfold base_valid. rewrite B1. split; intros [K|K]; auto.
    + right. split; [reflexivity|]. destruct a1; [|reflexivity]. exfalso. destruct (proj1 B2 eq_refl) as (x & Ix & Rx). exact (K x Ix Rx).
    + right. intros x Ix Rx. destruct K as [_ ->]. enough (false = true) by discriminate. apply B2. eauto.
Qed.

(** ** Unifying ranges of all versions *)
Lemma to_u64_small z : 0 <= z -> is64 z -> to_u64 z = z.
Proof. intros H [H1 H2]. unfold int_max, int_min in *. unfold to_u64, two64. apply Z.mod_small. lia. Qed.
Definition bounds_by (big : bool) (r : vrange) (v : Z) : Prop := covers big r v.
Lemma need_merge_spec big a b m : r64 a -> r64 b -> uns big (r_min a) <= uns big (r_min b) -> need_merge big a b = Ok m ->
  m = true -> forall v, uns big (r_min a) <= v <= Z.max (uns big (r_max a)) (uns big (r_max b)) <-> covers big a v \/ covers big b v.
Proof.
  intros [A1 A2] [B1 B2] O H M v. unfold need_merge in H. unfold covers. apply bind_Ok in H as (m1 & Hm & H). apply Ok_inj in H. subst m.
  destruct big; cbn [uns] in *.
  - apply Ok_inj in Hm. pose proof (to_u64_range (r_max a)) as U1. pose proof (to_u64_range (r_max b)) as U2. pose proof (to_u64_range (r_min b)) as U3.
    pose proof (to_u64_range (r_min a)) as U4.
    destruct (Z.eq_dec (to_u64 (r_max a)) (two64 - 1)) as [E|E].
    + split; [|lia]. intros K. left. lia.
    + unfold to_u64 at 1 in Hm. rewrite Z.mod_small in Hm by lia. lia.
  - unfold s64 in Hm. destruct ((int_min <=? r_max a + 1) && (r_max a + 1 <=? int_max)); [|discriminate]. apply Ok_inj in Hm. lia.
Qed.
Definition from_min (big : bool) (a b : vrange) : Prop := uns big (r_min a) <= uns big (r_min b).
Lemma unify_from_spec big : forall l a l', unify_from big a l = Ok l' -> Forall r64 (a :: l) -> StronglySorted (from_min big) (a :: l) ->
  (forall v, (exists r, In r l' /\ covers big r v) <-> (exists r, In r (a :: l) /\ covers big r v)) /\
  (forall r, In r l' -> (exists r0, In r0 (a :: l) /\ r_since r = r_since r0 /\ r_depr r = r_depr r0) /\ r64 r /\
     exists r0 r1, In r0 (a :: l) /\ In r1 (a :: l) /\ r_min r = r_min r0 /\ r_max r = r_max r1).
Proof.
  induction l as [|b l IH]; intros a l' H F S.
  - cbn in H. apply Ok_inj in H. subst l'. split; [tauto|]. intros r [<-|[]]. inversion F; subst. split; [eexists; cbn; split; [left; reflexivity|auto]|].
    split; [assumption|]. exists a, a. cbn. auto.
  - cbn [unify_from] in H. apply bind_Ok in H as (m & Hm & H). inversion F as [|? ? Fa F']; subst. inversion F' as [|? ? Fb Fl]; subst.
    inversion S as [|? ? S' Sa]; subst. inversion S' as [|? ? S'' Sb]; subst. inversion Sa as [|? ? Sab Sal]; subst.
    destruct m.
    + pose proof (need_merge_spec big a b true Fa Fb Sab Hm eq_refl) as M.
      set (a' := if uns big (r_max a) <? uns big (r_max b) then mkRange (r_min a) (r_max b) (r_since a) (r_depr a) else a) in *.
      assert (Ha' : r_min a' = r_min a /\ r_since a' = r_since a /\ r_depr a' = r_depr a /\ (r_max a' = r_max a \/ r_max a' = r_max b) /\
                    uns big (r_max a') = Z.max (uns big (r_max a)) (uns big (r_max b))).
      { unfold a'. destruct (uns big (r_max a) <? uns big (r_max b)) eqn:E; cbn; intuition; lia. }
      destruct Ha' as (A1 & A2 & A3 & A4 & A5).
      destruct (IH a' l' H) as [I1 I2].
      { constructor; [|exact Fl]. destruct Fa, Fb. split; [now rewrite A1|]. destruct A4 as [-> | ->]; assumption. }
      { constructor; [exact S''|]. eapply Forall_impl; [|exact Sal]. intros x Hx. unfold from_min in *. now rewrite A1. }
      split.
      * intro v. rewrite I1. specialize (M v). unfold covers in M. split.
        -- intros (r & [<-|K] & C); [|exists r; cbn; auto].
           unfold covers in C. rewrite A1, A5 in C. apply M in C as [C|C]; [exists a|exists b]; cbn; auto.
        -- intros (r & [<-|[<-|K]] & C); [exists a'|exists a'|exists r; cbn; auto]; (split; [now left|]); unfold covers; rewrite A1, A5; apply M; auto.
      * intros r Hr. destruct (I2 r Hr) as [(r0 & [<-|K0] & K1 & K2) (R & s0 & s1 & J0 & J1 & J2 & J3)].
        -- split; [exists a; cbn; rewrite <- A2, <- A3; auto|]. split; [exact R|].
           assert (X0 : exists t0, In t0 (a :: b :: l) /\ r_min s0 = r_min t0) by (destruct J0 as [<-|J0]; [exists a; cbn; auto|exists s0; cbn; auto]).
           assert (X1 : exists t1, In t1 (a :: b :: l) /\ r_max s1 = r_max t1)
             by (destruct J1 as [<-|J1]; [destruct A4 as [-> | ->]; [exists a|exists b]; cbn; auto|exists s1; cbn; auto]).
           destruct X0 as (t0 & ? & ?), X1 as (t1 & ? & ?). exists t0, t1. repeat split; congruence || assumption.
        -- split; [exists r0; cbn; auto|]. split; [exact R|].
           assert (X0 : exists t0, In t0 (a :: b :: l) /\ r_min s0 = r_min t0) by (destruct J0 as [<-|J0]; [exists a; cbn; auto|exists s0; cbn; auto]).
           assert (X1 : exists t1, In t1 (a :: b :: l) /\ r_max s1 = r_max t1)
             by (destruct J1 as [<-|J1]; [destruct A4 as [-> | ->]; [exists a|exists b]; cbn; auto|exists s1; cbn; auto]).
           destruct X0 as (t0 & ? & ?), X1 as (t1 & ? & ?). exists t0, t1. repeat split; congruence || assumption.
    + apply bind_Ok in H as (rest & Hrest & H). apply Ok_inj in H. subst l'. destruct (IH b rest Hrest F' S') as [I1 I2]. split.
      * intro v. specialize (I1 v). split.
        -- intros (r & [<-|K] & C); [exists a; cbn; auto|]. destruct (proj1 I1) as (r1 & K1 & C1); [eauto|]. exists r1. cbn. auto.
        -- intros (r & [<-|K] & C); [exists a; cbn; auto|]. destruct (proj2 I1) as (r1 & K1 & C1); [eauto|]. exists r1. cbn. auto.
      * intros r [<-|Hr].
        -- split; [exists a; cbn; auto|]. split; [exact Fa|]. exists a, a. cbn. auto.
        -- destruct (I2 r Hr) as [(r0 & K0 & K1 & K2) (R & s0 & s1 & J0 & J1 & J2 & J3)].
           split; [exists r0; split; [right; exact K0|auto]|]. split; [exact R|]. exists s0, s1. repeat split; auto; right; assumption.
Qed.
Lemma unify_spec big l l' : unify big l = Ok l' -> Forall r64 l -> StronglySorted (from_min big) l ->
  (forall v, (exists r, In r l' /\ covers big r v) <-> (exists r, In r l /\ covers big r v)) /\
  (forall r, In r l' -> (exists r0, In r0 l /\ r_since r = r_since r0 /\ r_depr r = r_depr r0) /\ r64 r /\
     exists r0 r1, In r0 l /\ In r1 l /\ r_min r = r_min r0 /\ r_max r = r_max r1).
Proof.
  destruct l as [|a l]; cbn [unify]; [|apply unify_from_spec]. intros H _ _. apply Ok_inj in H. subst l'. split; [tauto|]. intros ? [].
Qed.

(** Ranges of different versions which leave a gap are not merged. *)
Definition kept_apart (big : bool) (P : Z -> Z -> bool) (a c : vrange) : Prop :=
  P (r_since a) (r_depr a) = P (r_since c) (r_depr c) \/ uns big (r_max a) + 1 < uns big (r_min c) \/ uns big (r_max c) < uns big (r_min c).
Lemma need_merge_near big a b : r64 a -> r64 b -> need_merge big a b = Ok true -> uns big (r_min b) <= uns big (r_max a) + 1.
Proof.
  intros [A1 A2] [B1 B2] H. unfold need_merge in H. apply bind_Ok in H as (m1 & Hm & H). apply Ok_inj in H. destruct big; cbn [uns] in *.
  - apply Ok_inj in Hm. pose proof (to_u64_range (r_max a)) as U1. pose proof (to_u64_range (r_min b)) as U3.
    destruct (Z.eq_dec (to_u64 (r_max a)) (two64 - 1)) as [E|E]; [lia|]. unfold to_u64 at 1 in Hm. rewrite Z.mod_small in Hm by lia. lia.
  - unfold s64 in Hm. destruct ((int_min <=? r_max a + 1) && (r_max a + 1 <=? int_max)); [|discriminate]. apply Ok_inj in Hm. lia.
Qed.
Lemma unify_from_groups big P : forall l a l', unify_from big a l = Ok l' -> Forall r64 (a :: l) -> StronglySorted (from_min big) (a :: l) ->
  ForallOrdPairs (kept_apart big P) (a :: l) ->
  forall v, (exists r, In r l' /\ P (r_since r) (r_depr r) = true /\ covers big r v) <->
            (exists r, In r (a :: l) /\ P (r_since r) (r_depr r) = true /\ covers big r v).
Proof.
  induction l as [|b l IH]; intros a l' H F S G v.
  - cbn in H. apply Ok_inj in H. subst l'. tauto.
  - cbn [unify_from] in H. apply bind_Ok in H as (m & Hm & H). inversion F as [|? ? Fa F']; subst. inversion F' as [|? ? Fb Fl]; subst.
    inversion S as [|? ? S' Sa]; subst. inversion S' as [|? ? S'' Sb]; subst. inversion Sa as [|? ? Sab Sal]; subst.
    inversion G as [|? ? Ga G']; subst. inversion G' as [|? ? Gb G'']; subst. inversion Ga as [|? ? Gab Gal]; subst.
    destruct m.
    + pose proof (need_merge_spec big a b true Fa Fb Sab Hm eq_refl v) as M. pose proof (need_merge_near big a b Fa Fb Hm) as N.
      set (a' := if uns big (r_max a) <? uns big (r_max b) then mkRange (r_min a) (r_max b) (r_since a) (r_depr a) else a) in *.
      assert (Ha' : r_min a' = r_min a /\ r_since a' = r_since a /\ r_depr a' = r_depr a /\ (r_max a' = r_max a \/ r_max a' = r_max b) /\
                    uns big (r_max a') = Z.max (uns big (r_max a)) (uns big (r_max b))).
      { unfold a'. destruct (uns big (r_max a) <? uns big (r_max b)) eqn:E; cbn; intuition; lia. }
      destruct Ha' as (A1 & A2 & A3 & A4 & A5).
      rewrite Forall_forall in Gal, Gb. unfold from_min in Sab.
      rewrite (IH a' l' H).
      * unfold covers in M. split.
        -- intros (r & [<-|K] & Pr & C); [|exists r; cbn; auto].
           unfold covers in C. rewrite A1, A5 in C. rewrite A2, A3 in Pr. apply M in C as [C|C]; [exists a; cbn; auto|].
           destruct Gab as [E|[E|E]]; [exists b; cbn; rewrite <- E; auto|lia|lia].
        -- intros (r & [<-|[<-|K]] & Pr & C); [exists a'|exists a'|exists r; cbn; auto]; (split; [now left|]); unfold covers; rewrite A1, A5, A2, A3; (split; [|apply M; auto]).
           ++ exact Pr.
           ++ destruct Gab as [E|[E|E]]; [congruence|unfold covers in C; lia|unfold covers in C; lia].
      * constructor; [|exact Fl]. destruct Fa, Fb. split; [now rewrite A1|]. destruct A4 as [-> | ->]; assumption.
      * constructor; [exact S''|]. eapply Forall_impl; [|exact Sal]. intros x Hx. unfold from_min in *. now rewrite A1.
      * constructor; [|exact G'']. apply Forall_forall. intros c Hc. specialize (Gal c Hc). specialize (Gb c Hc). unfold kept_apart in *. rewrite A2, A3, A5.
        destruct Gal as [E|[E|E]]; [auto| |auto]. destruct Gb as [E'|[E'|E']]; [|right; left; lia|auto].
        destruct Gab as [K|[K|K]]; [left; congruence|lia|]. right. left. lia.
    + apply bind_Ok in H as (rest & Hrest & H). apply Ok_inj in H. subst l'. specialize (IH b rest Hrest F' S' G' v). split.
      * intros (r & [<-|K] & C); [exists a; cbn; auto|]. destruct (proj1 IH) as (r1 & K1 & C1); [eauto|]. exists r1. cbn. auto.
      * intros (r & [<-|K] & C); [exists a; cbn; auto|]. destruct (proj2 IH) as (r1 & K1 & C1); [eauto|]. exists r1. cbn. auto.
Qed.

(** ** The options in front of the ranges *)
Lemma unit_options_named u : genParseUnitsToOpt u = [] \/ exists s, genParseUnitsToOpt u = copt (L "Units" ++ s).
Proof.
  unfold genParseUnitsToOpt. destruct (assoc u units_options) as [o|] eqn:E; [|auto].
  apply assoc_In in E.
  assert (F : Forall (fun kv : str * str => snd kv = [] \/ exists s, snd kv = copt (L "Units" ++ s)) units_options).
  { repeat (constructor; [first [left; reflexivity|right; eexists; reflexivity]|]). constructor. }
  rewrite Forall_forall in F. exact (F _ E).
Qed.
Lemma neutral_add v l : neutral v -> Forall neutral l -> Forall neutral (genAddToStrList v l).
Proof.
  intros Hv Hl. rewrite Forall_forall in *. intros x Hx. apply in_add in Hx as [-> |Hx]; auto.
Qed.
Lemma neutral_add_if b v l : neutral v -> Forall neutral l -> Forall neutral (add_if b v l).
Proof. intros Hv Hl. destruct b; cbn; [now apply neutral_add|exact Hl]. Qed.
Lemma def_options_neutral x c : Forall neutral (comms_def_options x c).
Proof.
  unfold comms_def_options. repeat (apply neutral_add_if; [neutral_tac|]).
  assert (B : Forall neutral ((if fs_global x then [L "TExtraOpts..."] else []) ++
           match fs_custom x with Some s => [L "typename TOpt::" ++ s] | None => [] end)).
  { apply Forall_app. split; [destruct (fs_global x)|destruct (fs_custom x)]; constructor; try constructor; neutral_tac. }
  destruct (fs_forcedFail x).
  - apply Forall_app. split; [apply neutral_add_if; [neutral_tac|exact B]|]. constructor; [neutral_tac|constructor].
  - repeat (apply neutral_add_if; [neutral_tac|]). exact B.
Qed.
Definition front_opts (x : field_settings) (c : common) (i : int_state) : res (list str) :=
  let o := comms_def_options x c in
  let o := add_length_opt c i o in
  o <- add_ser_offset_opt i o ;;
  o <- add_display_offset_opt i o ;;
  o <- add_scaling_opt i o ;;
  Ok (add_units_opt i o).
Lemma front_neutral x c i o : front_opts x c i = Ok o -> Forall neutral o.
Proof.
  unfold front_opts. intros H. pose proof (def_options_neutral x c) as N.
  assert (N1 : Forall neutral (add_length_opt c i (comms_def_options x c))).
  { unfold add_length_opt. destruct (is_var (i_type i)); [apply neutral_add; [neutral_tac|exact N]|].
    destruct (negb _); [apply neutral_add; [neutral_tac|exact N]|]. destruct (negb _); [apply neutral_add; [neutral_tac|exact N]|exact N]. }
  apply bind_Ok in H as (o1 & H1 & H). apply bind_Ok in H as (o2 & H2 & H). apply bind_Ok in H as (o3 & H3 & H). apply Ok_inj in H. subst o.
  assert (N2 : Forall neutral o1).
  { unfold add_ser_offset_opt in H1. destruct (i_serOffset i =? 0); [apply Ok_inj in H1; now subst|].
    apply bind_Ok in H1 as (s & _ & H1). apply Ok_inj in H1. subst. apply neutral_add; [neutral_tac|exact N1]. }
  assert (N3 : Forall neutral o2).
  { unfold add_display_offset_opt in H2. destruct (i_displayOffset i =? 0); [apply Ok_inj in H2; now subst|].
    apply bind_Ok in H2 as (s & _ & H2). apply Ok_inj in H2. subst. apply neutral_add; [neutral_tac|exact N2]. }
  assert (N4 : Forall neutral o3).
  { unfold add_scaling_opt in H3. destruct (i_scaling i) as [n d]. destruct ((n =? 1) && (d =? 1)); [apply Ok_inj in H3; now subst|].
    destruct ((n =? 0) || (d =? 0)); [apply Ok_inj in H3; now subst|].
    apply bind_Ok in H3 as (s & _ & H3). apply bind_Ok in H3 as (s2 & _ & H3). apply Ok_inj in H3. subst. apply neutral_add; [neutral_tac|exact N3]. }
  unfold add_units_opt. destruct (unit_options_named (i_units i)) as [E|[s E]]; rewrite E.
  - cbn [is_nil]. exact N4.
  - replace (is_nil (copt (L "Units" ++ s))) with false by reflexivity. apply neutral_add; [neutral_tac|exact N4].
Qed.
Lemma default_neutral ge c i o o' : add_default_opt ge c i o = Ok o' -> Forall neutral o -> Forall neutral o'.
Proof.
  unfold add_default_opt. intros H N. destruct (_ && _); [apply Ok_inj in H; subst; apply neutral_add; [neutral_tac|exact N]|].
  destruct (_ =? _); [apply Ok_inj in H; now subst|]. destruct (_ && _); [apply Ok_inj in H; subst; apply neutral_add; [neutral_tac|exact N]|].
  apply bind_Ok in H as (s & _ & H). apply Ok_inj in H. subst. apply neutral_add; [neutral_tac|exact N].
Qed.
Lemma int_def_opts_steps ge x c i o : int_def_opts ge x c i false = Ok o ->
  exists o1 o2 o3, front_opts x c i = Ok o1 /\ add_default_opt ge c i o1 = Ok o2 /\ add_ranges_opt ge i o2 = Ok o3 /\
  o = add_if (i_availableLengthLimit i) (copt (L "AvailableLengthLimit")) (add_if (requires_refresh c i) (copt (L "HasCustomRefresh")) o3).
Proof.
  unfold int_def_opts, front_opts. intros H.
  apply bind_Ok in H as (p1 & H1 & H). apply bind_Ok in H as (p2 & H2 & H). apply bind_Ok in H as (p3 & H3 & H).
  apply bind_Ok in H as (o2 & H4 & H). apply bind_Ok in H as (o3 & H5 & H). apply Ok_inj in H.
  rewrite H1. cbn [bind]. rewrite H2. cbn [bind]. rewrite H3. cbn [bind]. exists (add_units_opt i p3), o2, o3. auto.
Qed.
Lemma int_valid_ranges ge x c i o v : int_def_opts ge x c i false = Ok o ->
  exists l, (if valid_check_version ge i then l = i_ranges i else unify (gen_big_unsigned i) (i_ranges i) = Ok l) /\
  (Forall r64 l ->
   (base_valid o v <->
    (exists r, In r l /\ taken ge (valid_check_version ge i) r = true /\ covers (as_big (gen_big_unsigned i) r) r v) \/
    Forall (fun r => genDoesElementExist (ge_ver ge) (r_since r) (r_depr r) (negb (valid_check_version ge i)) = false) l)).
Proof.
  intros H. apply int_def_opts_steps in H as (o1 & o2 & o3 & H1 & H2 & H3 & ->).
  apply front_neutral in H1. apply (default_neutral _ _ _ _ _ H2) in H1.
  destruct (add_ranges_valid ge i o2 o3 v H3 H1) as (l & Hl & K). exists l. split; [exact Hl|]. intros R.
  rewrite !base_valid_add_if by neutral_tac. now apply K.
Qed.

(** ** Signed and unsigned readings of the bounds agree *)
(** either the type says how the bounds are to be read, or they are the same number both ways *)
Definition sign_clear (i : int_state) : Prop :=
  i_type i = Uint64 \/ (i_type i <> Uintvar /\ i_length i < 8) \/
  Forall (fun r => 0 <= r_min r /\ 0 <= r_max r) (i_ranges i).
Lemma stands_as_cmp t z v : is64 z -> stands_for t z v <-> v = as_cmp (is_big t) z.
Proof. intros _. unfold stands_for, as_cmp, to_u64, two64. destruct t; cbn; reflexivity. Qed.
Lemma reported_as_cmp t lo hi v : is64 lo -> is64 hi ->
  reported_range t lo hi v <-> as_cmp (is_big t) lo <= v <= as_cmp (is_big t) hi.
Proof.
  intros H1 H2. unfold reported_range. split.
  - intros (l & h & A & B & C). apply stands_as_cmp in A; auto. apply stands_as_cmp in B; auto. subst. exact C.
  - intros C. exists (as_cmp (is_big t) lo), (as_cmp (is_big t) hi). rewrite !stands_as_cmp by assumption. auto.
Qed.
Lemma sign_clear_uns i z : is64 z -> (i_type i = Uint64 \/ (i_type i <> Uintvar /\ i_length i < 8) \/ 0 <= z) ->
  uns (gen_big_unsigned i) z = as_cmp (is_big (i_type i)) z.
Proof.
  intros Hz [E|[[E1 E2]|E]].
  - unfold gen_big_unsigned. rewrite E. reflexivity.
  - unfold gen_big_unsigned, as_cmp. destruct (i_type i); try congruence; cbn [is_big uns];
      try (replace (8 <=? i_length i) with false by lia; reflexivity); reflexivity.
  - unfold uns, as_cmp. rewrite (to_u64_small z E Hz). destruct (gen_big_unsigned i), (is_big (i_type i)); reflexivity.
Qed.
Lemma in_intmax_spec z : is64 z -> in_intmax z = true <-> 0 <= z.
Proof.
  intros H. unfold in_intmax. split; intros K.
  - destruct (Z.ltb_spec z 0); [|lia]. exfalso. unfold is64, int_min, int_max in *.
    assert (to_u64 z = z + two64). { unfold to_u64. symmetry. apply (Z.mod_unique _ _ (-1)); unfold two64; lia. } unfold two64 in *. lia.
  - rewrite (to_u64_small z K H). unfold is64, int_max in H. lia.
Qed.
Lemma as_big_uns big r z : r64 r -> z = r_min r \/ z = r_max r -> uns (as_big big r) z = uns big z.
Proof.
  intros [H1 H2] Hz. unfold as_big. destruct big; [|reflexivity]. cbn [andb].
  destruct (in_intmax (r_min r) && in_intmax (r_max r)) eqn:E; [|reflexivity]. cbn [negb uns].
  apply andb_true_iff in E as [E1 E2]. apply in_intmax_spec in E1; [|exact H1]. apply in_intmax_spec in E2; [|exact H2].
  destruct Hz as [-> | ->]; symmetry; now apply to_u64_small.
Qed.
Lemma covers_as_big big r v : r64 r -> covers (as_big big r) r v <-> covers big r v.
Proof. intros H. unfold covers. rewrite !as_big_uns by auto. tauto. Qed.
Lemma covers_reported i r v : r64 r -> sign_clear i -> In r (i_ranges i) ->
  covers (gen_big_unsigned i) r v <-> reported_range (i_type i) (r_min r) (r_max r) v.
Proof.
  intros [H1 H2] S I. unfold covers. rewrite reported_as_cmp by assumption.
  assert (K : forall z, z = r_min r \/ z = r_max r -> is64 z -> uns (gen_big_unsigned i) z = as_cmp (is_big (i_type i)) z).
  { intros z Hz Z64. apply sign_clear_uns; [exact Z64|]. destruct S as [S|[S|S]]; auto. right; right.
    rewrite Forall_forall in S. destruct (S _ I). destruct Hz as [-> | ->]; assumption. }
  rewrite !K by auto. tauto.
Qed.

(** ** All ranges, whatever the version *)
Lemma unify_from_ne big l : forall a, unify_from big a l <> Ok [].
Proof.
  induction l as [|b l IH]; intros a H; cbn [unify_from] in H; [discriminate|].
  apply bind_Ok in H as ([] & _ & H); [exact (IH _ H)|]. apply bind_Ok in H as (? & _ & H). discriminate.
Qed.
Lemma valid_all_versions ge x c i o : int_inv i -> sign_clear i -> valid_check_version ge i = false ->
  int_def_opts ge x c i false = Ok o ->
  Forall (fun r => genDoesElementExist (ge_ver ge) (r_since r) (r_depr r) true = true) (i_ranges i) ->
  forall v, base_valid o v <-> i_ranges i = [] \/ exists r, In r (i_ranges i) /\ reported_range (i_type i) (r_min r) (r_max r) v.
Proof.
  intros Inv S Hc Ho Ex v. destruct (int_valid_ranges _ _ _ _ _ v Ho) as (l & Hl & K). rewrite Hc in *. cbn [negb] in K.
  pose proof (inv_ranges _ Inv) as R.
  assert (Srt : StronglySorted (from_min (gen_big_unsigned i)) (i_ranges i)).
  { eapply SS_impl; [|apply Forall_forall; intros r Hr; exact Hr|exact (inv_sorted _ Inv)].
    intros a b Ia Ib N. cbn beta in *. unfold from_min. rewrite Forall_forall in R.
    destruct (R _ Ia) as [A1 A2]. destruct (R _ Ib) as [B1 B2].
    assert (Q : forall r, In r (i_ranges i) -> uns (gen_big_unsigned i) (r_min r) = as_cmp (is_big (i_type i)) (r_min r)).
    { intros r Hr. destruct (R _ Hr). apply sign_clear_uns; [assumption|]. destruct S as [S|[S|S]]; auto. right; right.
      rewrite Forall_forall in S. now destruct (S _ Hr). }
    rewrite !Q by assumption. unfold wlt in N. lia. }
  destruct (unify_spec _ _ _ Hl R Srt) as [U1 U2].
  assert (R' : Forall r64 l) by (apply Forall_forall; intros r Hr; now destruct (U2 r Hr) as (_ & ? & _)).
  rewrite (K R'). rewrite Forall_forall in R, R', Ex.
  assert (Ex' : forall r, In r l -> genDoesElementExist (ge_ver ge) (r_since r) (r_depr r) true = true).
  { intros r Hr. destruct (U2 r Hr) as ((r0 & I0 & -> & ->) & _). now apply Ex. }
  split.
  - intros [(r & Ir & _ & C)|F].
    + right. apply (proj1 (covers_as_big _ _ _ (R' _ Ir))) in C. destruct (proj1 (U1 v) (ex_intro _ r (conj Ir C))) as (r0 & I0 & C0). exists r0. split; [exact I0|].
      apply (proj1 (covers_reported _ _ _ (R _ I0) S I0)) in C0. exact C0.
    + left. destruct (i_ranges i) as [|r0 rs] eqn:E; [reflexivity|]. exfalso. cbn [unify] in Hl.
      destruct l as [|r l].
      * exact (unify_from_ne _ _ _ Hl).
      * inversion F; subst. rewrite (Ex' r (or_introl eq_refl)) in H1. discriminate.
  - intros [E|(r & Ir & C)].
    + right. rewrite E in Hl. cbn in Hl. apply Ok_inj in Hl. subst l. constructor.
    + left. apply (proj2 (covers_reported _ _ _ (R _ Ir) S Ir)) in C. destruct (proj2 (U1 v) (ex_intro _ r (conj Ir C))) as (r0 & I0 & C0).
      exists r0. split; [exact I0|split; [|apply covers_as_big; auto]]. unfold taken. cbn [negb andb]. now rewrite (Ex' r0 I0).
Qed.

(** ** The ranges of the generated versions, if ranges of different versions leave gaps *)
Lemma FOP_impl {A} (P Q : A -> A -> Prop) (R : A -> A -> Prop) l : StronglySorted R l ->
  (forall a b, In a l -> In b l -> R a b -> P a b -> Q a b) -> (forall a b, In a l -> In b l -> P a b) -> ForallOrdPairs Q l.
Proof.
  intros S. induction S as [|a l S IH F]; intros H K; constructor.
  - rewrite Forall_forall in F. apply Forall_forall. intros b Hb. apply H; cbn; auto. apply K; cbn; auto.
  - apply IH; intros; [apply H|apply K]; cbn; auto.
Qed.
Definition gap (i : int_state) (a b : vrange) : Prop :=
  forall x y, stands_for (i_type i) (r_max a) x -> stands_for (i_type i) (r_min b) y -> x + 1 < y.
Lemma valid_apart ge x c i o : int_inv i -> sign_clear i -> valid_check_version ge i = false ->
  int_def_opts ge x c i false = Ok o ->
  (forall a b, In a (i_ranges i) -> In b (i_ranges i) ->
     genDoesElementExist (ge_ver ge) (r_since a) (r_depr a) true = genDoesElementExist (ge_ver ge) (r_since b) (r_depr b) true \/ gap i a b \/ gap i b a) ->
  (exists r, In r (i_ranges i) /\ genDoesElementExist (ge_ver ge) (r_since r) (r_depr r) true = true /\ exists v, reported_range (i_type i) (r_min r) (r_max r) v) ->
  forall v, base_valid o v <-> exists r, In r (i_ranges i) /\
     genDoesElementExist (ge_ver ge) (r_since r) (r_depr r) true = true /\ reported_range (i_type i) (r_min r) (r_max r) v.
Proof.
  intros Inv S Hc Ho Ap Ne v. destruct (int_valid_ranges _ _ _ _ _ v Ho) as (l & Hl & K). rewrite Hc in *. cbn [negb] in K.
  pose proof (inv_ranges _ Inv) as R. rewrite Forall_forall in R.
  assert (Q : forall r, In r (i_ranges i) -> uns (gen_big_unsigned i) (r_min r) = as_cmp (is_big (i_type i)) (r_min r) /\
                                            uns (gen_big_unsigned i) (r_max r) = as_cmp (is_big (i_type i)) (r_max r)).
  { intros r Hr. destruct (R _ Hr). split; (apply sign_clear_uns; [assumption|]; destruct S as [S|[S|S]]; auto; right; right;
    rewrite Forall_forall in S; now destruct (S _ Hr)). }
  assert (Srt : StronglySorted (from_min (gen_big_unsigned i)) (i_ranges i)).
  { eapply SS_impl; [|apply Forall_forall; intros r Hr; exact Hr|exact (inv_sorted _ Inv)].
    intros a b Ia Ib N. cbn beta in *. unfold from_min. destruct (R _ Ia) as [A1 A2]. destruct (R _ Ib) as [B1 B2].
    rewrite (proj1 (Q a Ia)), (proj1 (Q b Ib)). unfold wlt in N. lia. }
  assert (G : ForallOrdPairs (kept_apart (gen_big_unsigned i) (fun s d => genDoesElementExist (ge_ver ge) s d true)) (i_ranges i)).
  { eapply FOP_impl; [exact Srt| |exact Ap]. intros a b Ia Ib N [E|[E|E]]; [left; exact E|right; left|right; right]; unfold from_min in N;
    destruct (Q a Ia) as [Qa Qa'], (Q b Ib) as [Qb Qb'], (R _ Ia) as [A1 A2], (R _ Ib) as [B1 B2]; unfold gap in E.
    - rewrite Qa', Qb. apply E; apply stands_as_cmp; auto.
    - assert (as_cmp (is_big (i_type i)) (r_max b) + 1 < as_cmp (is_big (i_type i)) (r_min a)) by (apply E; apply stands_as_cmp; auto). lia. }
  assert (R0 : Forall r64 (i_ranges i)) by now apply Forall_forall.
  destruct (unify_spec _ _ _ Hl R0 Srt) as [_ U2].
  assert (R' : Forall r64 l) by (apply Forall_forall; intros r Hr; now destruct (U2 r Hr) as (_ & ? & _)).
  assert (U : forall v, (exists r, In r l /\ genDoesElementExist (ge_ver ge) (r_since r) (r_depr r) true = true /\ covers (gen_big_unsigned i) r v) <->
      exists r, In r (i_ranges i) /\ genDoesElementExist (ge_ver ge) (r_since r) (r_depr r) true = true /\ covers (gen_big_unsigned i) r v).
  { intros u. destruct (i_ranges i) as [|a rs]; [destruct Ne as (r & [] & _)|]. exact (unify_from_groups _ _ _ _ _ Hl R0 Srt G u). }
  rewrite (K R'). rewrite Forall_forall in R'. split.
  - intros [(r & Ir & Tk & C)|F].
    + apply (proj1 (covers_as_big _ _ _ (R' _ Ir))) in C. unfold taken in Tk. cbn [negb andb] in Tk. rewrite andb_true_r in Tk.
      destruct (proj1 (U v) (ex_intro _ r (conj Ir (conj Tk C)))) as (r0 & I0 & E0 & C0). exists r0. split; [exact I0|]. split; [exact E0|].
      now apply (proj1 (covers_reported _ _ _ (R _ I0) S I0)) in C0.
    + exfalso. destruct Ne as (r & Ir & Er & (u & Cu)). apply (proj2 (covers_reported _ _ _ (R _ Ir) S Ir)) in Cu.
      destruct (proj2 (U u) (ex_intro _ r (conj Ir (conj Er Cu)))) as (r0 & I0 & E0 & C0). rewrite Forall_forall in F. rewrite (F r0 I0) in E0. discriminate.
  - intros (r & Ir & Er & C). left. apply (proj2 (covers_reported _ _ _ (R _ Ir) S Ir)) in C.
    destruct (proj2 (U v) (ex_intro _ r (conj Ir (conj Er C)))) as (r0 & I0 & E0 & C0). exists r0. split; [exact I0|]. split.
    + unfold taken. cbn [negb andb]. now rewrite E0.
    + apply covers_as_big; auto.
Qed.

(** ** Ranges of the versions a peer has *)
Lemma cpp_bits ty v n : In (ty, n) (signed_cpp ++ unsigned_cpp) -> cpp_holds ty v ->
  0 < n /\ ((In (ty, n) signed_cpp /\ signed_bits n v) \/ (In (ty, n) unsigned_cpp /\ unsigned_bits n v)).
Proof.
  intros H [(m & I & B)|(m & I & B)]; cbn [signed_cpp unsigned_cpp app In] in H, I;
    repeat match goal with K : _ \/ _ |- _ => destruct K as [K|K] end; try contradiction;
    repeat match goal with K : (_, _) = (ty, _) |- _ => apply pair_equal_spec in K as [? ?] end; subst;
    try (match goal with K : T _ = T _ |- _ => discriminate K end);
    (split; [lia|first [left; split; [cbn [signed_cpp In]; tauto|assumption] | right; split; [cbn [unsigned_cpp In]; tauto|assumption]]]).
Qed.
Lemma cpp_width ty v : cpp_holds ty v -> exists n, In (ty, n) (signed_cpp ++ unsigned_cpp).
Proof. intros [(m & I & _)|(m & I & _)]; exists m; apply in_or_app; auto. Qed.
Lemma cpp_sign ty n m : In (ty, n) signed_cpp -> In (ty, m) unsigned_cpp -> False.
Proof.
  intros H I. cbn [signed_cpp unsigned_cpp app In] in H, I.
  repeat match goal with K : _ \/ _ |- _ => destruct K as [K|K] end; try contradiction;
  repeat match goal with K : (_, _) = (ty, _) |- _ => apply pair_equal_spec in K as [? ?] end; subst;
  match goal with K : T _ = T _ |- _ => discriminate K end.
Qed.
Lemma converted_iff ty x y : cpp_holds ty x -> (converted ty x y <-> y = x).
Proof.
  intros H. split.
  - intros [Hy M]. destruct (cpp_width _ _ H) as [n I]. specialize (M n I).
    destruct (cpp_bits _ _ _ I H) as [Hn B1]. destruct (cpp_bits _ _ _ I Hy) as [_ B2].
    apply Z.mod_divide in M; [|pose proof (Z.pow_pos_nonneg 2 n); lia]. destruct M as [k M].
    assert (P : 0 < 2 ^ n) by (apply Z.pow_pos_nonneg; lia).
    assert (Q : 2 ^ n = 2 * 2 ^ (n - 1)) by (rewrite <- Z.pow_succ_r by lia; f_equal; lia).
    assert (D : - 2 ^ n < x - y < 2 ^ n).
    { destruct B1 as [[S1 B1]|[S1 B1]], B2 as [[S2 B2]|[S2 B2]]; try (exfalso; eapply cpp_sign; eassumption);
        unfold signed_bits, unsigned_bits in *; lia. }
    assert (k = 0) by nia. subst k. lia.
  - intros ->. split; [exact H|]. intros n _. rewrite Z.sub_diag. apply Zmod_0_l.
Qed.

Lemma numeral_head base s v : numeral base s v -> exists c d r, s = c :: r /\ is_digit base c d.
Proof.
  intros N. induction N as [c v D|ds c n v N (c0 & d & r & -> & D0) D]; [exists c, v, []; auto|].
  exists c0, d, (r ++ [c]). auto.
Qed.
Lemma literal_head s t v : literal s t v -> exists c r, s = c :: r /\ In c (T "-0123456789").
Proof.
  intros [d x l t0 v0 N _ _ _|d x l t0 v0 N _ _].
  - apply numeral_head in N as (c & e & r & -> & [E [K|K]]); exists c, (r ++ x); (split; [reflexivity|]);
      assert (F : e = 0 \/ e = 1 \/ e = 2 \/ e = 3 \/ e = 4 \/ e = 5 \/ e = 6 \/ e = 7 \/ e = 8 \/ e = 9) by lia;
      repeat destruct F as [-> |F]; try subst e; cbn in K; injection K as <-; cbn; tauto.
  - exists "0"%char, ("x"%char :: d ++ x). split; [reflexivity|cbn; tauto].
Qed.
Lemma constant_head s v : constant s v -> exists c r, s = c :: r /\ In c (T "-0123456789").
Proof.
  intros [s0 t v0 L0|s0 t v0 L0 _ _|s0 t v0 L0 _]; [exact (literal_head _ _ _ L0)| |]; exists "-"%char, s0; cbn; auto.
Qed.
Lemma atom_inv ty v w t : atom_true ty v w t ->
  (exists a x, constant a x /\ x <= w /\ t = T "(" ++ a ++ T " <= Base::getVersion())") \/
  (exists a x, constant a x /\ w < x /\ t = T "(Base::getVersion() < " ++ a ++ T ")") \/
  (exists a x, constant a x /\ converted ty x v /\ t = T "(static_cast<ValueType>(" ++ a ++ T ") == Base::getValue())") \/
  (exists a x y, constant a x /\ converted ty x y /\ y <= v /\ t = T "(static_cast<ValueType>(" ++ a ++ T ") <= Base::getValue())") \/
  (exists a x y, constant a x /\ converted ty x y /\ v <= y /\ t = T "(Base::getValue() <= static_cast<ValueType>(" ++ a ++ T "))").
Proof. intros [a x C H|a x C H|a x C H|a x y C H1 H2|a x y C H1 H2]; eauto 12. Qed.
Lemma head_ne a v c r : constant a v -> ~ In c (T "-0123456789") -> forall t, a ++ t <> c :: r.
Proof. intros C N t E. apply constant_head in C as (c0 & r0 & -> & I). cbn in E. injection E as -> _. exact (N I). Qed.
Ltac atom_cases A :=
  let a := fresh "a" in let x := fresh "x" in let y := fresh "y" in let C := fresh "C" in let E := fresh "E" in
  apply atom_inv in A as [(a & x & C & A & E)|[(a & x & C & A & E)|[(a & x & C & A & E)|[(a & x & y & C & A & ?B & E)|(a & x & y & C & A & ?B & E)]]]].
Ltac no_head := exfalso;
  match goal with E : T "(" ++ ?a ++ _ = T _ ++ _ |- _ => cbn [T list_ascii_of_string app] in E; injection E as E;
                    eapply head_ne in E; [exact E|eassumption|cbn; intuition discriminate]
                | E : T _ ++ _ = T "(" ++ ?a ++ _ |- _ => symmetry in E; cbn [T list_ascii_of_string app] in E; injection E as E;
                    eapply head_ne in E; [exact E|eassumption|cbn; intuition discriminate] end.
Lemma since_atom ty v w a x : constant a x -> atom_true ty v w (T "(" ++ a ++ T " <= Base::getVersion())") <-> x <= w.
Proof.
  intros Ca. split; [|intros; now constructor 1 with x]. intros A. atom_cases A; try no_head.
  apply app_inv_head, app_inv_tail in E. subst a0. now rewrite (constant_det _ _ _ Ca C).
Qed.
Lemma until_atom ty v w a x : constant a x -> atom_true ty v w (T "(Base::getVersion() < " ++ a ++ T ")") <-> w < x.
Proof.
  intros Ca. split; [|intros; now constructor 2 with x]. intros A. atom_cases A; try no_head; try discriminate E.
  apply app_inv_head, app_inv_tail in E. subst a0. now rewrite (constant_det _ _ _ Ca C).
Qed.
Lemma cast_tail a b x y s t : constant a x -> constant b y -> a ++ ")"%char :: s = b ++ ")"%char :: t -> a = b /\ s = t.
Proof. intros Ca Cb. apply cut_unique; eapply constant_no; try eassumption; cbn; tauto. Qed.
Lemma eq_atom ty v w a x : constant a x -> cpp_holds ty x ->
  atom_true ty v w (T "(static_cast<ValueType>(" ++ a ++ T ") == Base::getValue())") <-> v = x.
Proof.
  intros Ca Hx. split; [|intros ->; constructor 3 with x; [exact Ca|now apply converted_iff]].
  intros A. atom_cases A; try no_head; try discriminate E; apply app_inv_head in E; cbn [T list_ascii_of_string app] in E;
    apply (cast_tail _ _ _ _ _ _ Ca C) in E as [-> E]; try discriminate E.
  rewrite <- (constant_det _ _ _ Ca C) in A. now apply converted_iff in A.
Qed.
Lemma from_atom ty v w a x : constant a x -> cpp_holds ty x ->
  atom_true ty v w (T "(static_cast<ValueType>(" ++ a ++ T ") <= Base::getValue())") <-> x <= v.
Proof.
  intros Ca Hx. split; [|intros; constructor 4 with x x; [exact Ca|now apply converted_iff|assumption]].
  intros A. atom_cases A; try no_head; try discriminate E; apply app_inv_head in E; cbn [T list_ascii_of_string app] in E;
    apply (cast_tail _ _ _ _ _ _ Ca C) in E as [-> E]; try discriminate E.
  rewrite <- (constant_det _ _ _ Ca C) in A. apply converted_iff in A; [|exact Hx]. now subst.
Qed.
Lemma to_atom ty v w a x : constant a x -> cpp_holds ty x ->
  atom_true ty v w (T "(Base::getValue() <= static_cast<ValueType>(" ++ a ++ T "))") <-> v <= x.
Proof.
  intros Ca Hx. split; [|intros; constructor 5 with x x; [exact Ca|now apply converted_iff|assumption]].
  intros A. atom_cases A; try no_head; try discriminate E; apply app_inv_head in E; cbn [T list_ascii_of_string app] in E.
  apply (cast_tail _ _ _ _ _ _ Ca C) in E as [-> E].
  rewrite <- (constant_det _ _ _ Ca C) in A. apply converted_iff in A; [|exact Hx]. now subst.
Qed.
Lemma check_conds_spec ty big r l v w : r64 r -> 0 <= r_since r < two64 -> 0 <= r_depr r < two64 -> 0 <= w < 4294967295 ->
  cpp_holds ty (as_cmp big (r_min r)) -> cpp_holds ty (as_cmp big (r_max r)) -> check_conds big r = Ok l -> r_depr r <= 4294967295 ->
  (Forall (atom_true ty v w) l <-> r_since r <= w < r_depr r /\ as_cmp big (r_min r) <= v <= as_cmp big (r_max r)).
Proof.
  intros [M1 M2] Hs Hd Hw T1 T2 H Hn. unfold check_conds in H. apply bind_Ok in H as ([lo hi] & Hb & H).
  assert (B : constant lo (as_cmp big (r_min r)) /\ constant hi (as_cmp big (r_max r))).
  { unfold as_cmp. destruct big.
    - apply Ok_inj in Hb. apply pair_equal_spec in Hb as [<- <-]. split; apply numU_spec, to_u64_range.
    - apply bind_Ok in Hb as (a & Ha & Hb). apply bind_Ok in Hb as (b & Hb' & Hb). apply Ok_inj in Hb.
      apply pair_equal_spec in Hb as [<- <-]. split; apply numS_spec; assumption. }
  destruct B as [Clo Chi]. apply Ok_inj in H. subst l. rewrite !Forall_app.
  assert (A1 : Forall (atom_true ty v w) (if 0 <? r_since r then [L "(" ++ genNumToStringU (r_since r) 0 ++ L " <= Base::getVersion())"] else []) <-> r_since r <= w).
  { destruct (0 <? r_since r) eqn:E; [|split; [lia|constructor]].
    rewrite Forall_cons_iff. rewrite (since_atom ty v w _ _ (numU_spec _ Hs)). split; [tauto|]. intros; split; [assumption|constructor]. }
  assert (A2 : Forall (atom_true ty v w) (if r_depr r <? 4294967295 then [L "(Base::getVersion() < " ++ genNumToStringU (r_depr r) 0 ++ L ")"] else []) <-> w < r_depr r).
  { destruct (r_depr r <? 4294967295) eqn:E; [|split; [lia|constructor]].
    rewrite Forall_cons_iff. rewrite (until_atom ty v w _ _ (numU_spec _ Hd)). split; [tauto|]. intros; split; [assumption|constructor]. }
  rewrite A1, A2. destruct (r_min r =? r_max r) eqn:E.
  - rewrite Forall_cons_iff. rewrite (eq_atom ty v w _ _ Clo T1). replace (r_max r) with (r_min r) by lia.
    split; [intros (? & ? & -> & _); lia|]. intros; split; [lia|split; [lia|split; [lia|constructor]]].
  - rewrite !Forall_cons_iff. rewrite (from_atom ty v w _ _ Clo T1), (to_atom ty v w _ _ Chi T2).
    split; [intros (? & ? & ? & ? & _); lia|]. intros; split; [lia|split; [lia|split; [lia|split; [lia|constructor]]]].
Qed.

Lemma valid_versions ge x c i o checks ty w : int_inv i -> sign_clear i -> valid_check_version ge i = true ->
  int_def_opts ge x c i false = Ok o -> valid_checks ge i = Ok checks ->
  Forall (fun r => 0 <= r_since r <= 4294967295 /\ 0 <= r_depr r <= 4294967295) (i_ranges i) ->
  Forall (fun r => forall z, stands_for (i_type i) (r_min r) z \/ stands_for (i_type i) (r_max r) z -> cpp_holds ty z) (i_ranges i) ->
  0 <= gv_min_remote (ge_ver ge) -> gv_min_remote (ge_ver ge) <= w <= genSchemaVersion (ge_ver ge) -> genSchemaVersion (ge_ver ge) < 4294967295 ->
  forall v, generated_valid ty o checks v w <->
    (forall r, In r (i_ranges i) -> genSchemaVersion (ge_ver ge) < r_since r) \/
    exists r, In r (i_ranges i) /\ reported_range (i_type i) (r_min r) (r_max r) v /\
      r_since r <= w /\ (w < r_depr r \/ r_since r <= gv_min_remote (ge_ver ge)).
Proof.
  intros Inv S Hc Ho Hk Vs Hd M0 Hw M1 v. destruct (int_valid_ranges _ _ _ _ _ v Ho) as (l & Hl & K). rewrite Hc in *. cbn [negb] in K. subst l.
  pose proof (inv_ranges _ Inv) as R. specialize (K R). unfold generated_valid. rewrite K. clear K.
  unfold valid_checks in Hk. rewrite Hc in Hk. cbn [negb] in Hk. set (g := ge_ver ge) in *.
  rewrite Forall_forall in R, Vs, Hd.
  assert (K1 : forall r, In r (i_ranges i) -> (taken ge true r = true <-> r_since r <= gv_min_remote g)).
  { intros r Hr. destruct (Vs r Hr). unfold taken, genDoesElementExist, genIsElementOptional. fold g. cbn [negb andb]. 
    destruct (genSchemaVersion g <? r_since r) eqn:E1, (gv_min_remote g <? r_since r) eqn:E2; cbn; split; lia || discriminate || tauto. }
  assert (K2 : forall r, In r (i_ranges i) -> (covers (as_big (gen_big_unsigned i) r) r v <-> reported_range (i_type i) (r_min r) (r_max r) v)).
  { intros r Hr. rewrite covers_as_big by auto. now apply covers_reported; auto. }
  assert (K3 : Forall (fun r => genDoesElementExist g (r_since r) (r_depr r) false = false) (i_ranges i) <->
               forall r, In r (i_ranges i) -> genSchemaVersion g < r_since r).
  { rewrite Forall_forall. unfold genDoesElementExist. split; intros K r Hr; specialize (K r Hr).
    - destruct (genSchemaVersion g <? r_since r) eqn:E; [lia|discriminate].
    - now replace (genSchemaVersion g <? r_since r) with true by lia. }
  assert (K4 : forall r, In r (i_ranges i) -> forall conj, check_conds (is_big (i_type i)) r = Ok conj ->
     (Forall (atom_true ty v w) conj <-> r_since r <= w < r_depr r /\ reported_range (i_type i) (r_min r) (r_max r) v)).
  { intros r Hr conj Hj. destruct (R r Hr) as [Q1 Q2]. destruct (Vs r Hr) as [V1 V2]. rewrite reported_as_cmp by assumption.
    apply check_conds_spec; auto; unfold two64; try lia; apply (Hd r Hr); rewrite !stands_as_cmp by assumption; auto. }
  rewrite K3. split.
  - intros [[(r & Hr & Ht & Hv)|Ha]|(conj & Ij & Hj)]; auto.
    + right. exists r. split; [exact Hr|]. split; [now apply K2|]. apply K1 in Ht; [|exact Hr]. lia.
    + right. destruct (mapM_In _ _ _ _ Hk Ij) as (r & Hr & Hx). apply filter_In in Hr as [Hr _].
      apply (K4 r Hr) in Hj; [|exact Hx]. exists r. tauto.
  - intros [Ha|(r & Hr & Hv & H1 & H2)]; auto.
    destruct (Z.le_gt_cases (r_since r) (gv_min_remote g)) as [Hm|Hm].
    + left. left. exists r. split; [exact Hr|split; [now apply K1|now apply K2]].
    + right. destruct (mapM_In_fwd _ _ _ r Hk) as (conj & Ij & Hx).
      { apply filter_In. split; [exact Hr|]. unfold genIsElementOptional. now replace (gv_min_remote g <? r_since r) with true by lia. }
      exists conj. split; [exact Ij|]. apply (K4 r Hr _ Hx). split; [lia|exact Hv].
Qed.

(** ** Where an option comes from *)
Definition ser_opts (i : int_state) : res (list str) := add_ser_offset_opt i [].
Definition display_opts (i : int_state) : res (list str) := add_display_offset_opt i [].
Definition scaling_opts (i : int_state) : res (list str) := add_scaling_opt i [].
Definition length_opts (c : common) (i : int_state) : list str := add_length_opt c i [].
Definition default_opts (ge : gen_env) (c : common) (i : int_state) : res (list str) := add_default_opt ge c i [].
Lemma in_add_nil y v : In y (genAddToStrList v []) <-> y = v.
Proof. rewrite in_add. cbn. tauto. Qed.
Lemma length_In y c i o : In y (add_length_opt c i o) <-> In y (length_opts c i) \/ In y o.
Proof.
  unfold length_opts, add_length_opt. destruct (is_var (i_type i)); [rewrite !in_add; cbn; tauto|].
  destruct (negb _); [rewrite !in_add; cbn; tauto|]. destruct (negb _); [rewrite !in_add; cbn; tauto|cbn; tauto].
Qed.
Lemma ser_In i o o' : add_ser_offset_opt i o = Ok o' -> exists l, ser_opts i = Ok l /\ forall y, In y o' <-> In y l \/ In y o.
Proof.
  unfold ser_opts, add_ser_offset_opt. destruct (_ =? _); intros H; [apply Ok_inj in H; subst; exists []; cbn; split; [reflexivity|tauto]|].
  apply bind_Ok in H as (s & Hs & H). apply Ok_inj in H. subst. rewrite Hs. cbn [bind]. eexists. split; [reflexivity|]. intros y. rewrite !in_add. cbn. tauto.
Qed.
Lemma display_In i o o' : add_display_offset_opt i o = Ok o' -> exists l, display_opts i = Ok l /\ forall y, In y o' <-> In y l \/ In y o.
Proof.
  unfold display_opts, add_display_offset_opt. destruct (_ =? _); intros H; [apply Ok_inj in H; subst; exists []; cbn; split; [reflexivity|tauto]|].
  apply bind_Ok in H as (s & Hs & H). apply Ok_inj in H. subst. rewrite Hs. cbn [bind]. eexists. split; [reflexivity|]. intros y. rewrite !in_add. cbn. tauto.
Qed.
Lemma scaling_In i o o' : add_scaling_opt i o = Ok o' -> exists l, scaling_opts i = Ok l /\ forall y, In y o' <-> In y l \/ In y o.
Proof.
  unfold scaling_opts, add_scaling_opt. destruct (i_scaling i) as [n d].
  destruct ((n =? 1) && (d =? 1)); intros H; [apply Ok_inj in H; subst; exists []; cbn; split; [reflexivity|tauto]|].
  destruct ((n =? 0) || (d =? 0)); [apply Ok_inj in H; subst; exists []; cbn; split; [reflexivity|tauto]|].
  apply bind_Ok in H as (s & Hs & H). apply bind_Ok in H as (s2 & Hs2 & H). apply Ok_inj in H. subst. rewrite Hs. cbn [bind]. rewrite Hs2. cbn [bind].
  eexists. split; [reflexivity|]. intros y. rewrite !in_add. cbn. tauto.
Qed.
Lemma default_In ge c i o o' : add_default_opt ge c i o = Ok o' -> exists l, default_opts ge c i = Ok l /\ forall y, In y o' <-> In y l \/ In y o.
Proof.
  unfold default_opts, add_default_opt. destruct (_ && _); intros H; [apply Ok_inj in H; subst; eexists; split; [reflexivity|]; intros y; rewrite !in_add; cbn; tauto|].
  destruct (_ =? _); [apply Ok_inj in H; subst; exists []; cbn; split; [reflexivity|tauto]|].
  destruct (_ && _); [apply Ok_inj in H; subst; eexists; split; [reflexivity|]; intros y; rewrite !in_add; cbn; tauto|].
  apply bind_Ok in H as (s & Hs & H). apply Ok_inj in H. subst. rewrite Hs. cbn [bind].
  eexists. split; [reflexivity|]. intros y. rewrite !in_add. cbn. tauto.
Qed.
Lemma units_In i o y : In y (add_units_opt i o) <-> (genParseUnitsToOpt (i_units i) <> [] /\ y = genParseUnitsToOpt (i_units i)) \/ In y o.
Proof.
  unfold add_units_opt. destruct (genParseUnitsToOpt (i_units i)) as [|a s] eqn:E; cbn [is_nil]; [tauto|]. rewrite in_add.
  split; intros [H|H]; auto; [left; split; [discriminate|exact H]|tauto].
Qed.
Lemma range_opt_name big r y : range_opt big r = Ok y -> exists s, y = copt (L "Valid" ++ s).
Proof.
  unfold range_opt. destruct (_ && _).
  - intros H. apply Ok_inj in H. subst y. destruct (_ =? _); eexists; unfold copt; reflexivity.
  - destruct (_ =? _); intros H.
    + apply bind_Ok in H as (a & _ & H). apply Ok_inj in H. subst y. eexists; unfold copt; reflexivity.
    + apply bind_Ok in H as (a & _ & H). apply bind_Ok in H as (b & _ & H). apply Ok_inj in H. subst y. eexists; unfold copt; reflexivity.
Qed.
Lemma ranges_In ge i o o' : add_ranges_opt ge i o = Ok o' -> forall y,
  (In y o -> In y o') /\ (In y o' -> In y o \/ (exists s, y = copt (L "Valid" ++ s)) \/ y = copt (L "VersionStorage") \/ y = copt (L "InvalidByDefault")).
Proof.
  intros H y. unfold add_ranges_opt in H. destruct (is_nil (i_ranges i)); [apply Ok_inj in H; subst; auto|].
  apply bind_Ok in H as (l & Hl & H). apply bind_Ok in H as ([[o1 s1] a1] & Hf & H). apply Ok_inj in H.
  apply ranges_fold in Hf as (F1 & _).
  assert (A : In y o -> In y o1) by (intros K; apply F1; auto).
  assert (B : In y o1 -> In y o \/ (exists s, y = copt (L "Valid" ++ s))).
  { intros K. apply F1 in K as [K|(r & _ & _ & K)]; [auto|]. right. eapply range_opt_name; eauto. }
  subst o'. destruct s1; [|tauto]. destruct a1; rewrite !in_add; tauto.
Qed.
Lemma opts_from ge x c i o : int_def_opts ge x c i false = Ok o ->
  exists ls ld lc lf, ser_opts i = Ok ls /\ display_opts i = Ok ld /\ scaling_opts i = Ok lc /\ default_opts ge c i = Ok lf /\
  forall y,
   (In y (comms_def_options x c) -> In y o) /\ (In y (length_opts c i) -> In y o) /\ (In y ls -> In y o) /\ (In y ld -> In y o) /\
   (In y lc -> In y o) /\ (genParseUnitsToOpt (i_units i) <> [] -> In (genParseUnitsToOpt (i_units i)) o) /\ (In y lf -> In y o) /\
   (In y o ->
     In y (comms_def_options x c) \/ In y (length_opts c i) \/ In y ls \/ In y ld \/ In y lc \/
     (genParseUnitsToOpt (i_units i) <> [] /\ y = genParseUnitsToOpt (i_units i)) \/ In y lf \/
     (exists s, y = copt (L "Valid" ++ s)) \/ y = copt (L "VersionStorage") \/ y = copt (L "InvalidByDefault") \/
     y = copt (L "HasCustomRefresh") \/ y = copt (L "AvailableLengthLimit")).
Proof.
  intros H. apply int_def_opts_steps in H as (o1 & o2 & o3 & H1 & H2 & H3 & ->). unfold front_opts in H1.
  apply bind_Ok in H1 as (p1 & P1 & H1). apply bind_Ok in H1 as (p2 & P2 & H1). apply bind_Ok in H1 as (p3 & P3 & H1). apply Ok_inj in H1. subst o1.
  apply ser_In in P1 as (ls & Ls & P1). apply display_In in P2 as (ld & Ld & P2). apply scaling_In in P3 as (lc & Lc & P3).
  apply default_In in H2 as (lf & Lf & H2). exists ls, ld, lc, lf. do 4 (split; [assumption|]). intros y.
  pose proof (ranges_In _ _ _ _ H3 y) as [R1 R2]. pose proof (ranges_In _ _ _ _ H3 (genParseUnitsToOpt (i_units i))) as [R3 _].
  rewrite H2, units_In, P3, P2, P1, length_In in R1, R2. rewrite H2, units_In in R3. rewrite !in_add_if.
  clear - R1 R2 R3.
  assert (Q1 : forall P1 P2 : Prop, In y lf \/ (genParseUnitsToOpt (i_units i) <> [] /\ y = genParseUnitsToOpt (i_units i)) \/ In y lc \/ In y ld \/
      In y ls \/ In y (length_opts c i) \/ In y (comms_def_options x c) -> P1 \/ P2 \/ In y o3) by (intros P1 P2 K; right; right; exact (R1 K)).
  split; [intros K; apply Q1; auto 10|]. split; [intros K; apply Q1; auto 10|]. split; [intros K; apply Q1; auto 10|].
  split; [intros K; apply Q1; auto 10|]. split; [intros K; apply Q1; auto 10|]. clear Q1.
  split; [intros K; right; right; apply R3; right; left; auto|]. split; [intros K; right; right; apply R1; left; exact K|]. clear R1 R3.
  intros [[_ K]|[[_ K]|K]]; [do 11 right; exact K|do 10 right; left; exact K|].
  destruct (R2 K) as [[H|[H|[H|[H|[H|[H|H]]]]]]|[H|[H|H]]]; clear - H; auto 15.
Qed.
