(** Facts about the generator's text utilities. *)
From Coq Require Import Sorted Permutation.
From Coq Require Import ZifyBool ZifyNat.
From Verif.Model Require Import Base Common Field IntField GenUtil GenComms.
From Verif.Spec Require Import Texts GenSpec Ints.
From Verif.Proofs Require Import BaseFacts CommonFacts RangeFacts MapFacts PlatFacts.
Local Open Scope Z_scope.
Local Open Scope list_scope.

Lemma app_same_len {A} (a : list A) : forall b x y, length a = length b -> a ++ x = b ++ y -> a = b /\ x = y.
Proof.
  induction a as [|c a IH]; intros [|d b] x y HL E; try discriminate; [now split|].
  injection HL as HL. injection E as -> E. destruct (IH _ _ _ HL E) as [-> ->]. now split.
Qed.

(** * Searching *)
Lemma strip_some p : forall s r, strip p s = Some r <-> s = p ++ r.
Proof.
  induction p as [|x p IH]; intros s r; simpl.
  - split; [now injection 1|now intros ->].
  - destruct s as [|y s]; [split; discriminate|].
    destruct (ch_eqb x y) eqn:E.
    + apply ch_eqb_eq in E as <-. rewrite IH. split; [now intros ->|now injection 1].
    + apply ch_eqb_neq in E. split; [discriminate|]. now injection 1 as ->.
Qed.
Lemma strip_none p s : strip p s = None <-> forall r, s <> p ++ r.
Proof.
  destruct (strip p s) as [r|] eqn:E.
  - apply strip_some in E. split; [discriminate|]. intro H. now destruct (H r).
  - split; [|auto]. intros _ r H. apply strip_some in H. congruence.
Qed.
Lemma find_sub_spec w : forall s b a, find_sub w s = Some (b, a) ->
  s = b ++ w ++ a /\ forall b' c', s = b' ++ w ++ c' -> (length b <= length b')%nat.
Proof.
  induction s as [|c s IH]; intros b a; cbn [find_sub].
  - destruct (strip w []) as [r|] eqn:E; [|discriminate]. injection 1 as <- <-.
    apply strip_some in E. split; [exact E|intros; simpl; lia].
  - destruct (strip w (c :: s)) as [r|] eqn:E.
    + injection 1 as <- <-. apply strip_some in E. split; [exact E|intros; simpl; lia].
    + destruct (find_sub w s) as [[b0 a0]|] eqn:F; [|discriminate]. injection 1 as <- <-.
      destruct (IH _ _ eq_refl) as [-> M]. split; [reflexivity|].
      intros [|x b'] c' H.
      * exfalso. revert E. rewrite strip_none. intro E. now apply (E c').
      * injection H as <- H. apply M in H. simpl. lia.
Qed.
Lemma find_sub_none w : forall s, find_sub w s = None <-> ~ occurs w s.
Proof.
  induction s as [|c s IH]; cbn [find_sub].
  - destruct (strip w []) as [r|] eqn:E.
    + apply strip_some in E. split; [discriminate|]. intro H. destruct H. exists [], r. exact E.
    + split; [|auto]. rewrite strip_none in E. intros _ ([|x a] & b & H); [now apply (E b)|discriminate].
  - destruct (strip w (c :: s)) as [r|] eqn:E.
    + apply strip_some in E. split; [discriminate|]. intro H. destruct H. exists [], r. exact E.
    + rewrite strip_none in E. destruct (find_sub w s) as [[b0 a0]|] eqn:F.
      * split; [discriminate|]. intro H. destruct H. apply find_sub_spec in F as [-> _].
        exists (c :: b0), a0. reflexivity.
      * split; [|auto]. intros _ ([|x a] & b & H); [now apply (E b)|].
        injection H as <- H. destruct IH as [IH _]. apply IH; [reflexivity|]. now exists a, b.
Qed.
Lemma find_sub_first w b a : (forall b' c', b ++ w ++ a = b' ++ w ++ c' -> (length b <= length b')%nat) ->
  find_sub w (b ++ w ++ a) = Some (b, a).
Proof.
  intro M. destruct (find_sub w (b ++ w ++ a)) as [[b0 a0]|] eqn:F.
  - apply find_sub_spec in F as [E M0]. pose proof (M _ _ E) as H1. pose proof (M0 b a eq_refl) as H2.
    assert (length b = length b0) as HL by lia.
    destruct (app_same_len _ _ _ _ HL E) as [<- E2]. apply app_inv_head in E2. now subst.
  - apply find_sub_none in F. destruct F. now exists b, a.
Qed.

Lemma pieces_total w : w <> [] -> forall n s, (length s < n)%nat -> exists ps, pieces w s ps.
Proof.
  intro Hw. induction n as [|n IH]; intros s Hn; [lia|].
  destruct (find_sub w s) as [[b a]|] eqn:F.
  - apply find_sub_spec in F as [-> M].
    destruct (IH a) as [ps P].
    { rewrite !app_length in Hn. destruct w; [congruence|simpl in Hn; lia]. }
    exists (b :: ps). now constructor.
  - exists [s]. constructor. now apply find_sub_none.
Qed.
Lemma pieces_nonnil w s ps : pieces w s ps -> ps <> [].
Proof. intro H. inversion H; congruence. Qed.
Lemma join_cons2 sep w ws : ws <> [] -> join sep (w :: ws) = w ++ sep ++ join sep ws.
Proof. destruct ws; [congruence|reflexivity]. Qed.
Lemma pieces_join w s ps : pieces w s ps -> join w ps = s.
Proof.
  induction 1 as [s _|a s ps _ H IH]; [reflexivity|].
  rewrite join_cons2 by (eapply pieces_nonnil; eauto). now rewrite IH.
Qed.
Lemma first_no_occur w a s : w <> [] -> (forall b c, a ++ w ++ s = b ++ w ++ c -> (length a <= length b)%nat) -> ~ occurs w a.
Proof.
  intros Hw M (x & y & ->). specialize (M x (y ++ w ++ s)). rewrite !app_length in M.
  assert (length x + (length w + length y) <= length x)%nat by (apply M; now rewrite <- !app_assoc).
  destruct w; [congruence|simpl in *; lia].
Qed.
Lemma pieces_free w s ps : w <> [] -> pieces w s ps -> Forall (fun p => ~ occurs w p) ps.
Proof.
  intro Hw. induction 1 as [s H|a s ps M H IH]; constructor; auto. eapply first_no_occur; eauto.
Qed.
Lemma pieces_det w s ps : w <> [] -> pieces w s ps -> forall qs, pieces w s qs -> ps = qs.
Proof.
  intro Hw. induction 1 as [s H|a s ps M H IH]; intros qs Q; inversion Q as [s' H' E1 E2|a' s' ps' M' P' E1 E2]; subst.
  - reflexivity.
  - exfalso. apply H. now exists a', s'.
  - exfalso. apply H'. now exists a, s.
  - pose proof (M _ _ (eq_sym E1)). pose proof (M' _ _ E1).
    assert (length a' = length a) as HL by lia.
    destruct (app_same_len _ _ _ _ HL E1) as [-> E2]. apply app_inv_head in E2. subst. f_equal. now apply IH.
Qed.

Lemma replace_loop_spec w r : w <> [] -> forall n s ps, pieces w s ps -> (length s < n)%nat ->
  replace_loop n w r s = Ok (join r ps).
Proof.
  intro Hw. induction n as [|n IH]; intros s ps P Hn; [lia|]. cbn [replace_loop].
  destruct s as [|c s].
  - inversion P as [s' H' E1 E2|a' s' ps' M' P' E1 E2]; subst; [reflexivity|].
    destruct a'; [|discriminate]. destruct w; [congruence|discriminate].
  - inversion P as [s' H' E1 E2|a' s' ps' M' P' E1 E2]; subst.
    + rewrite (proj2 (find_sub_none _ _) H'). reflexivity.
    + rewrite find_sub_first by exact M'.
      rewrite (IH s' ps' P').
      * cbn [bind]. rewrite join_cons2 by (eapply pieces_nonnil; eauto). reflexivity.
      * apply (f_equal (@length _)) in E1. rewrite !app_length in E1. destruct w; [congruence|simpl in *; lia].
Qed.
Lemma replace_spec w r s ps : w <> [] -> pieces w s ps -> genStrReplace s w r = Ok (join r ps).
Proof. intros Hw P. apply replace_loop_spec; auto. Qed.
Lemma replace_total w r s : w <> [] -> exists ps, pieces w s ps /\ genStrReplace s w r = Ok (join r ps).
Proof.
  intro Hw. destruct (pieces_total w Hw (S (length s)) s) as [ps P]; [lia|].
  exists ps. split; [exact P|now apply replace_spec].
Qed.

(** * Splitting *)
Definition drop_last_empty (ps : list txt) : list txt :=
  match rev ps with [] :: r => rev r | _ => ps end.
Lemma drop_last_cons p ps : ps <> [] -> drop_last_empty (p :: ps) = p :: drop_last_empty ps.
Proof.
  intro H. unfold drop_last_empty. cbn [rev].
  destruct (rev ps) as [|x r] eqn:E.
  - apply (f_equal (@rev _)) in E. rewrite rev_involutive in E. now subst.
  - cbn [app]. destruct x; [|reflexivity]. now rewrite rev_app_distr.
Qed.
Lemma split_loop_spec w : w <> [] -> forall n s ps, pieces w s ps -> (length s < n)%nat ->
  split_loop n w false s = Ok (drop_last_empty ps).
Proof.
  intro Hw. induction n as [|n IH]; intros s ps P Hn; [lia|]. cbn [split_loop].
  destruct s as [|c s].
  - inversion P as [s' H' E1 E2|a' s' ps' M' P' E1 E2]; subst; [reflexivity|].
    destruct a'; [|discriminate]. destruct w; [congruence|discriminate].
  - inversion P as [s' H' E1 E2|a' s' ps' M' P' E1 E2]; subst.
    + rewrite (proj2 (find_sub_none _ _) H'). reflexivity.
    + rewrite find_sub_first by exact M'.
      assert (split_loop n w false s' = Ok (drop_last_empty ps')) as ->.
      { apply IH; [exact P'|]. apply (f_equal (@length _)) in E1. rewrite !app_length in E1. destruct w; [congruence|simpl in *; lia]. }
      rewrite drop_last_cons by (eapply pieces_nonnil; eauto).
      destruct a'; reflexivity.
Qed.
Lemma split_spec w s ps : w <> [] -> pieces w s ps -> genStrSplit s w false = Ok (drop_last_empty ps).
Proof. intros Hw P. apply split_loop_spec; auto. Qed.
Lemma split_loop_compressed w : w <> [] -> forall n s ps, pieces w s ps -> (length s < n)%nat ->
  split_loop n w true s = Ok (filter not_empty ps).
Proof.
  intro Hw. induction n as [|n IH]; intros s ps P Hn; [lia|]. cbn [split_loop].
  destruct s as [|c s].
  - inversion P as [s' H' E1 E2|a' s' ps' M' P' E1 E2]; subst; [reflexivity|].
    destruct a'; [|discriminate]. destruct w; [congruence|discriminate].
  - inversion P as [s' H' E1 E2|a' s' ps' M' P' E1 E2]; subst.
    + rewrite (proj2 (find_sub_none _ _) H'). reflexivity.
    + rewrite find_sub_first by exact M'.
      assert (split_loop n w true s' = Ok (filter not_empty ps')) as ->.
      { apply IH; [exact P'|]. apply (f_equal (@length _)) in E1. rewrite !app_length in E1. destruct w; [congruence|simpl in *; lia]. }
      destruct a'; reflexivity.
Qed.
Lemma drop_last_join sep ps : ps <> [] -> ps <> [[]] ->
  join sep (drop_last_empty ps) = join sep ps \/ join sep (drop_last_empty ps) ++ sep = join sep ps.
Proof.
  induction ps as [|p ps IH]; intros H1 H2; [congruence|].
  destruct ps as [|q ps].
  - left. destruct p; [congruence|reflexivity].
  - rewrite drop_last_cons by congruence. rewrite (join_cons2 sep p (q :: ps)) by congruence.
    destruct q as [|c q], ps as [|q' ps].
    + right. cbn. now rewrite !app_nil_r.
    + destruct IH as [IH|IH]; try congruence.
      * left. rewrite join_cons2; [now rewrite IH|]. rewrite drop_last_cons by congruence. congruence.
      * right. rewrite join_cons2; [now rewrite <- IH, <- !app_assoc|]. rewrite drop_last_cons by congruence. congruence.
    + destruct IH as [IH|IH]; try congruence; [left|right]; (rewrite join_cons2; [|cbn; congruence]).
      * now rewrite IH.
      * now rewrite <- IH, <- !app_assoc.
    + destruct IH as [IH|IH]; try congruence; [left|right];
        (rewrite join_cons2; [|rewrite drop_last_cons by congruence; congruence]).
      * now rewrite IH.
      * now rewrite <- IH, <- !app_assoc.
Qed.
Lemma drop_last_In p ps : In p (drop_last_empty ps) -> In p ps.
Proof.
  unfold drop_last_empty. destruct (rev ps) as [|x r] eqn:E; [auto|]. destruct x; [|auto].
  intro H. apply in_rev. rewrite E. right. now apply in_rev in H.
Qed.

(** * Include statements *)
Lemma unique_In x l : In x (unique l) <-> In x l.
Proof.
  induction l as [|y l IH]; [reflexivity|]. cbn [unique]. destruct (unique l) as [|z r].
  - cbn in *. tauto.
  - destruct (str_eqb y z) eqn:E.
    + apply str_eqb_eq in E as ->. cbn in *. tauto.
    + cbn in *. tauto.
Qed.
Lemma unique_sorted l : StronglySorted (fun a b => str_ltb b a = false) l ->
  StronglySorted (fun a b => str_ltb a b = true) (unique l).
Proof.
  induction 1 as [|x l S IH F]; cbn [unique]; [constructor|].
  pose proof (unique_In) as U. destruct (unique l) as [|y r] eqn:E.
  - repeat constructor.
  - destruct (str_eqb x y) eqn:Exy.
    + apply str_eqb_eq in Exy as ->. exact IH.
    + constructor; [exact IH|]. inversion IH as [|? ? S' F']; subst.
      assert (str_ltb x y = true) as Lt.
      { rewrite Forall_forall in F. assert (In y l) as Iy by (apply U; rewrite E; now left). apply F in Iy.
        destruct (str_ltb x y) eqn:E2; [reflexivity|]. apply str_eqb_neq in Exy. destruct Exy. now apply str_ltb_total. }
      constructor; [exact Lt|]. eapply Forall_impl; [|exact F']. intros z Hz. cbn in Hz. eapply str_ltb_trans; eauto.
Qed.
Lemma sorted_NoDup (l : list str) : StronglySorted (fun a b => str_ltb a b = true) l -> NoDup l.
Proof.
  induction 1 as [|x l S IH F]; constructor; auto. intro I. rewrite Forall_forall in F. apply F in I.
  rewrite str_ltb_irrefl in I. discriminate.
Qed.

(** * Numbers *)
Lemma digit_chr_digit up base d : base <= 16 -> 0 <= d < base -> is_digit base (digit_chr up d) d.
Proof.
  intros Hb Hd. split; [lia|].
  assert (forall k, (k < 16)%nat -> d = Z.of_nat k ->
    nth_error (T "0123456789abcdef") (Z.to_nat d) = Some (digit_chr up d) \/
    nth_error (T "0123456789ABCDEF") (Z.to_nat d) = Some (digit_chr up d)) as H.
  { intros k Hk ->. destruct up;
    do 16 (destruct k as [|k]; [solve [left; vm_compute; reflexivity|right; vm_compute; reflexivity]|]); lia. }
  apply (H (Z.to_nat d)); lia.
Qed.
Lemma digit_chr_zero up d : 0 <= d < 16 -> digit_chr up d = "0"%char -> d = 0.
Proof.
  intros Hd E. pose proof (digit_chr_digit up 16 d ltac:(lia) Hd) as H. rewrite E in H.
  apply is_digit_spec in H as [H _]; [|lia]. rewrite dv0 in H. lia.
Qed.
Lemma to_base_spec base up : 2 <= base <= 16 -> forall n v acc, (0 < n)%nat -> 0 <= v < base ^ Z.of_nat n ->
  exists ds, to_base n base up v acc = ds ++ acc /\ numeral base ds v /\
             (hd_error ds = Some "0"%char -> v = 0 /\ ds = ["0"%char]).
Proof.
  intros Hb. induction n as [|n IH]; intros v acc Hn Hv; [lia|]. cbn [to_base].
  pose proof (Z.mod_pos_bound v base ltac:(lia)) as Hm. pose proof (Z.div_mod v base ltac:(lia)) as Hdm.
  destruct (v / base =? 0) eqn:E.
  - exists [digit_chr up (v mod base)]. split; [reflexivity|]. assert (v mod base = v) as Hvv by nia. split.
    + rewrite Hvv in *. constructor. apply digit_chr_digit; lia.
    + cbn. intro H. assert (digit_chr up (v mod base) = "0"%char) as H0 by congruence.
      rewrite H0. apply digit_chr_zero in H0; [|lia]. split; [lia|reflexivity].
  - assert (0 <= v / base) as Hq by (apply Z.div_pos; lia).
    assert (Z.of_nat (S n) = Z.of_nat n + 1) as HS by lia.
    destruct n as [|n0].
    { exfalso. change (base ^ Z.of_nat 1) with (base ^ 1) in Hv. rewrite Z.pow_1_r in Hv.
      rewrite Z.div_small in E by lia. discriminate. }
    destruct (IH (v / base) (digit_chr up (v mod base) :: acc)) as (ds & E1 & N & H0); [lia| |].
    { split; [exact Hq|]. apply Z.div_lt_upper_bound; [lia|]. rewrite HS, Z.pow_add_r in Hv by lia. lia. }
    exists (ds ++ [digit_chr up (v mod base)]). split; [rewrite <- app_assoc; exact E1|]. split.
    + rewrite Hdm at 2. replace (base * (v / base)) with ((v / base) * base) by lia.
      apply num_snoc; [exact N|]. apply digit_chr_digit; lia.
    + intro H. destruct ds as [|x ds]; [exfalso; apply (f_equal (@length _)) in E1; inversion N; try destruct ds; discriminate|].
      cbn in H. destruct (H0 H) as [Hz _]. lia.
Qed.
Lemma pow10 : two64 < 10 ^ Z.of_nat 64. Proof. reflexivity. Qed.
Lemma pow16 : two64 < 16 ^ Z.of_nat 64. Proof. reflexivity. Qed.
Lemma dec_str_spec v : 0 <= v < two64 -> numeral 10 (dec_str v) v /\ (hd_error (dec_str v) = Some "0"%char -> dec_str v = ["0"%char]).
Proof.
  intro H. destruct (to_base_spec 10 false ltac:(lia) 64 v []) as (ds & E & N & Z0); [lia|pose proof pow10; lia|].
  unfold dec_str. rewrite E, app_nil_r. split; [exact N|]. intro K. now apply Z0.
Qed.
Lemma hex_str_spec up v : 0 <= v < two64 -> numeral 16 (hex_str up v) v.
Proof.
  intro H. destruct (to_base_spec 16 up ltac:(lia) 64 v []) as (ds & E & N & Z0); [lia|pose proof pow16; lia|].
  unfold hex_str. now rewrite E, app_nil_r.
Qed.
Lemma pad0_numeral w ds v : numeral 16 ds v -> numeral 16 (pad0 w ds) v.
Proof.
  rewrite !numeral_spec by lia. intros (H1 & H2 & ->). unfold pad0. generalize (Z.to_nat w - length ds)%nat as k.
  induction k as [|k IH]; [auto|]. destruct IH as (I1 & I2 & I3). split; [discriminate|]. split.
  - constructor; [rewrite dv0; lia|exact I2].
  - rewrite I3. reflexivity.
Qed.
Lemma hex_no_star up v : 0 <= v < two64 -> ~ In "*"%char (hex_str up v).
Proof.
  intros H I. apply hex_str_spec with (up := up) in H. apply numeral_spec in H as (_ & H & _); [|lia].
  rewrite Forall_forall in H. apply H in I. vm_compute in I. discriminate.
Qed.

(** the value of a constant is determined by its text *)
Lemma candidates_suffix d s l : candidates d s l -> In s [[]; T "U"; T "LL"; T "ULL"].
Proof. destruct d; cbn; intuition subst; auto. Qed.
Lemma candidates_det d s l l' : candidates d s l -> candidates d s l' -> l = l'.
Proof. destruct d; cbn; intuition subst; try congruence; discriminate. Qed.
Lemma suffix_no_digit base s : base <= 16 -> In s [[]; T "U"; T "LL"; T "ULL"] -> ~ starts_with_digit base s.
Proof.
  intros Hb Hs (c & v & r & E & D). apply is_digit_spec in D as [D1 D2]; [|exact Hb].
  cbn in Hs. destruct Hs as [<-|[<-|[<-|[<-|[]]]]]; cbn in E; try discriminate; injection E as <- _;
    vm_compute in D1; subst v; lia.
Qed.
Lemma numeral_split base ds s v ds' s' v' : base <= 16 -> numeral base ds v -> numeral base ds' v' ->
  In s [[]; T "U"; T "LL"; T "ULL"] -> In s' [[]; T "U"; T "LL"; T "ULL"] -> ds ++ s = ds' ++ s' ->
  ds = ds' /\ s = s' /\ v = v'.
Proof.
  intros Hb N N' S S' E. apply numeral_spec in N as (_ & F & ->); [|exact Hb]. apply numeral_spec in N' as (_ & F' & ->); [|exact Hb].
  pose proof (run_unique base ds s Hb F (suffix_no_digit _ _ Hb S)) as R.
  pose proof (run_unique base ds' s' Hb F' (suffix_no_digit _ _ Hb S')) as R'.
  rewrite E, R' in R. injection R as -> ->. auto.
Qed.
Lemma first_type_det v l : forall t t', first_type v l t -> first_type v l t' -> t = t'.
Proof.
  induction l as [|a l IH]; intros t t' H H'; inversion H; inversion H'; subst; auto; contradiction.
Qed.
Lemma dec_not_hex ds s v hs : numeral 10 ds v -> (hd_error ds = Some "0"%char -> ds = ["0"%char]) ->
  In s [[]; T "U"; T "LL"; T "ULL"] -> ds ++ s <> T "0x" ++ hs.
Proof.
  intros N H S E. destruct ds as [|c ds]; [inversion N; try destruct ds; discriminate|].
  cbn in E. injection E as -> E. specialize (H eq_refl). injection H as ->. cbn in E.
  cbn in S. destruct S as [<-|[<-|[<-|[<-|[]]]]]; cbn in E; discriminate.
Qed.
Lemma literal_det s t v t' v' : literal s t v -> literal s t' v' -> t = t' /\ v = v'.
Proof.
  intros H H'. destruct H as [d x l t v N Z0 C F|d x l t v N C F];
    inversion H' as [d' x' l' t2 v2 N' Z0' C' F' E|d' x' l' t2 v2 N' C' F' E]; subst.
  - destruct (numeral_split 10 _ _ _ _ _ _ ltac:(lia) N N' (candidates_suffix _ _ _ C) (candidates_suffix _ _ _ C') (eq_sym E)) as (<- & <- & <-).
    rewrite (candidates_det _ _ _ _ C C') in F. split; [eapply first_type_det; eauto|reflexivity].
  - exfalso. symmetry in E. revert E. eapply dec_not_hex; eauto using candidates_suffix.
  - exfalso. revert E. eapply dec_not_hex; eauto using candidates_suffix.
  - 
    destruct (numeral_split 16 _ _ _ _ _ _ ltac:(lia) N N' (candidates_suffix _ _ _ C) (candidates_suffix _ _ _ C') (eq_sym E)) as (<- & <- & <-).
    rewrite (candidates_det _ _ _ _ C C') in F. split; [eapply first_type_det; eauto|reflexivity].
Qed.
Lemma literal_head s t v : literal s t v -> exists c r, s = c :: r /\ c <> "-"%char.
Proof.
  intro H. destruct H as [d x l t v N Z0 C F|d x l t v N C F].
  - apply numeral_spec in N as (N & F' & _); [|lia]. destruct d as [|c d]; [congruence|].
    exists c, (d ++ x). split; [reflexivity|]. intros ->. inversion F'; subst. vm_compute in H1. discriminate.
  - exists "0"%char, ("x"%char :: d ++ x). split; [reflexivity|discriminate].
Qed.
Lemma constant_det s v v' : constant s v -> constant s v' -> v = v'.
Proof.
  intros H H'.
  assert (forall s t v, literal ("-"%char :: s) t v -> False) as NL.
  { intros s0 t v0 K. apply literal_head in K as (c & r & E & N). congruence. }
  inversion H as [s1 t1 v1 L1|s1 t1 v1 L1 S1 B1|s1 t1 v1 L1 S1]; subst;
  inversion H' as [s2 t2 v2 L2|s2 t2 v2 L2 S2 B2|s2 t2 v2 L2 S2]; subst;
  try (exfalso; eapply NL; eassumption).
  - destruct (literal_det _ _ _ _ _ L1 L2) as [_ ->]; reflexivity.
  - destruct (literal_det _ _ _ _ _ L1 L2) as [-> ->]; reflexivity.
  - destruct (literal_det _ _ _ _ _ L1 L2) as [-> ->]; congruence.
  - destruct (literal_det _ _ _ _ _ L1 L2) as [-> ->]; congruence.
  - destruct (literal_det _ _ _ _ _ L1 L2) as [-> ->]; reflexivity.
Qed.
Lemma constant_unsigned v w : 0 <= v < two64 -> 0 <= w -> constant (genNumToStringU v w) v.
Proof.
  intros Hv Hw. unfold genNumToStringU. destruct (dec_str_spec v Hv) as [N Z0].
  pose proof (pad0_numeral w _ _ (hex_str_spec true v Hv)) as Nh. unfold two64 in Hv.
  destruct ((w =? 0) && (v <=? 65535)) eqn:E1.
  { econstructor. rewrite <- (app_nil_r (dec_str v)). eapply cpp_dec; [exact N|exact Z0|left; now split|].
    apply first_here. unfold ctype_holds. cbn. lia. }
  destruct ((w =? 0) && (v <=? 4294967295)) eqn:E2.
  { econstructor. eapply cpp_dec; [exact N|exact Z0|right; left; now split|].
    apply first_here. unfold ctype_holds. cbn. lia. }
  change (L "0x") with (T "0x"). destruct ((0 <? w) && (v <=? 65535)) eqn:E3.
  { eapply const_lit, cpp_hex; [exact Nh|left; now split|]. apply first_here. unfold ctype_holds. cbn. lia. }
  destruct ((0 <? w) && (v <=? 4294967295)) eqn:E4.
  { eapply const_lit, cpp_hex; [exact Nh|right; left; now split|]. apply first_here. unfold ctype_holds. cbn. lia. }
  eapply const_lit, cpp_hex; [exact Nh|right; right; right; now split|]. apply first_here. unfold ctype_holds. cbn. lia.
Qed.
Lemma first_int_long v : 0 <= v <= 2147483648 -> exists t, first_type v [TInt; TLong; TLongLong] t /\ ctype_signed t = true /\ ctype_holds t (- v).
Proof.
  intro H. destruct (Z.ltb_spec v 2147483648).
  - exists TInt. split; [apply first_here|split; [reflexivity|]]; unfold ctype_holds; cbn; lia.
  - exists TLong. split; [apply first_next; [|apply first_here]|split; [reflexivity|]]; unfold ctype_holds; cbn; lia.
Qed.
Lemma constant_signed_dec v : -2147483648 <= v <= 2147483647 -> constant (signed_dec v) v.
Proof.
  intro H. unfold signed_dec. destruct (v <? 0) eqn:E.
  - destruct (dec_str_spec (- v)) as [N Z0]; [unfold two64; lia|].
    destruct (first_int_long (- v)) as (t & F & S & B); [lia|].
    replace v with (- - v) at 2 by lia. eapply const_neg; [|exact S|exact B].
    rewrite <- (app_nil_r (dec_str _)). eapply cpp_dec; [exact N|exact Z0|left; now split|exact F].
  - destruct (dec_str_spec v) as [N Z0]; [unfold two64; lia|].
    destruct (first_int_long v) as (t & F & S & B); [lia|].
    econstructor. rewrite <- (app_nil_r (dec_str _)). eapply cpp_dec; [exact N|exact Z0|left; now split|exact F].
Qed.
Lemma constant_neg_hex v : int_min < v < 0 -> constant (L "-0x" ++ hex_str false (- v) ++ L "LL") v.
Proof.
  unfold int_min. intro H. replace v with (- - v) at 2 by lia.
  change (constant ("-"%char :: (T "0x" ++ hex_str false (- v) ++ T "LL")) (- - v)).
  apply (const_neg _ TLongLong); [|reflexivity|].
  - eapply cpp_hex; [apply hex_str_spec; unfold two64; lia|right; right; left; now split|].
    apply first_here. unfold ctype_holds. cbn. lia.
  - unfold ctype_holds. cbn. lia.
Qed.
Lemma s64_ok v : int_min <= v <= int_max -> s64 v = Ok v.
Proof. intro H. unfold s64. now replace ((int_min <=? v) && (v <=? int_max)) with true by lia. Qed.
