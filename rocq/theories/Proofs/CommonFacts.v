From Verif.Model Require Import Base Common.
From Verif.Spec Require Import Texts.
From Verif.Proofs Require Import BaseFacts.
From Coq Require Import ZifyBool ZifyNat.

(** ** All 256 characters *)
Definition all_chars : list ascii := map ascii_of_nat (seq 0 256).
Lemma all_chars_In c : In c all_chars.
Proof.
  unfold all_chars. apply in_map_iff. exists (nat_of_ascii c). split.
  - apply ascii_nat_embedding.
  - apply in_seq. pose proof (nat_ascii_bounded c). lia.
Qed.
Lemma all_chars_b (P : ascii -> bool) : forallb P all_chars = true -> forall c, P c = true.
Proof. intros H c. rewrite forallb_forall in H. apply H, all_chars_In. Qed.

Definition memc (c : ascii) (l : str) : bool := existsb (Ascii.eqb c) l.
Lemma memc_In c l : memc c l = true <-> In c l.
Proof.
  unfold memc. rewrite existsb_exists. split.
  - intros (x & Hx & E). apply Ascii.eqb_eq in E. subst. exact Hx.
  - intros H. exists c. split; auto. apply Ascii.eqb_refl.
Qed.
Lemma ch_eqb_eq a b : ch_eqb a b = true <-> a = b.
Proof. apply Ascii.eqb_eq. Qed.
Lemma ch_eqb_refl a : ch_eqb a a = true.
Proof. apply Ascii.eqb_refl. Qed.
Lemma ch_eqb_neq a b : ch_eqb a b = false <-> a <> b.
Proof. apply Ascii.eqb_neq. Qed.

Lemma charset_eq (p : ascii -> bool) (l : str) :
  forallb (fun c => Bool.eqb (p c) (memc c l)) all_chars = true ->
  forall c, p c = true <-> In c l.
Proof.
  intros H c. rewrite <- memc_In. pose proof (all_chars_b _ H c) as E. cbv beta in E.
  apply Bool.eqb_prop in E. rewrite E. tauto.
Qed.
Lemma name_start_spec c : name_start c = true <-> letter_or_underscore c.
Proof. unfold letter_or_underscore. revert c. apply charset_eq. vm_compute. reflexivity. Qed.
Lemma name_char_spec c : name_char c = true <-> (letter_or_underscore c \/ dec_digit c).
Proof.
  unfold letter_or_underscore, dec_digit. rewrite <- in_app_iff. revert c. apply charset_eq.
  vm_compute. reflexivity.
Qed.
Lemma code_set (p : ascii -> bool) (l : list N) :
  forallb (fun c => Bool.eqb (p c) (existsb (N.eqb (N_of_ascii c)) l)) all_chars = true ->
  forall c, p c = true <-> In (N_of_ascii c) l.
Proof.
  intros H c. pose proof (all_chars_b _ H c) as E. cbv beta in E. apply Bool.eqb_prop in E.
  rewrite E, existsb_exists. split.
  - intros (x & Hx & Q). apply N.eqb_eq in Q. subst. exact Hx.
  - intros Q. exists (N_of_ascii c). split; auto. apply N.eqb_refl.
Qed.
Lemma isspace_spec c : isspace c = true <-> space c.
Proof. unfold space. revert c. apply code_set. vm_compute. reflexivity. Qed.
Lemma is_ws_spec c : is_ws c = true <-> blank c.
Proof. unfold blank. revert c. apply code_set. vm_compute. reflexivity. Qed.

Lemma digit_val_nonneg c : 0 <= digit_val c.
Proof.
  assert (H : (0 <=? digit_val c) = true); [|lia].
  revert c. apply all_chars_b. vm_compute. reflexivity.
Qed.
Lemma digit_val_lookup c : digit_val c < 16 ->
  nth_error (T "0123456789abcdef") (Z.to_nat (digit_val c)) = Some c \/
  nth_error (T "0123456789ABCDEF") (Z.to_nat (digit_val c)) = Some c.
Proof.
  intros H.
  assert (E : (let q s := match nth_error s (Z.to_nat (digit_val c)) with
              | Some d => Ascii.eqb d c | None => false end in
              (16 <=? digit_val c) || q (T "0123456789abcdef") || q (T "0123456789ABCDEF")) = true).
  { revert c H. intros c _. revert c. apply all_chars_b. vm_compute. reflexivity. }
  cbv zeta in E. rewrite !orb_true_iff in E. destruct E as [[E|E]|E].
  - lia.
  - left. destruct nth_error as [d|]; [|discriminate]. apply Ascii.eqb_eq in E. congruence.
  - right. destruct nth_error as [d|]; [|discriminate]. apply Ascii.eqb_eq in E. congruence.
Qed.
Lemma lookup_digit_val s n c :
  s = T "0123456789abcdef" \/ s = T "0123456789ABCDEF" ->
  nth_error s n = Some c -> digit_val c = Z.of_nat n.
Proof.
  intros Hs Hn.
  assert (B : (n < 16)%nat).
  { assert (n < length s)%nat by (apply nth_error_Some; congruence).
    destruct Hs; subst s; vm_compute in H; lia. }
  destruct Hs; subst s;
  do 16 (destruct n as [|n]; [vm_compute in Hn; injection Hn as <-; vm_compute; reflexivity|]); lia.
Qed.
Lemma is_digit_spec base c v : base <= 16 -> (is_digit base c v <-> digit_val c = v /\ v < base).
Proof.
  intros Hb. unfold is_digit. split.
  - intros [Hv [H|H]].
    + apply lookup_digit_val in H; auto. lia.
    + apply lookup_digit_val in H; auto. lia.
  - intros [<- H]. pose proof (digit_val_nonneg c). split; [lia|]. apply digit_val_lookup. lia.
Qed.

(** ** Literals *)
Definition dfold (base : Z) (a : Z) (ds : str) : Z :=
  fold_left (fun a c => a * base + digit_val c) ds a.

(** [digits] consumes the longest run *)
Fixpoint run (base : Z) (s : str) : str * str :=
  match s with
  | c :: s' => if digit_val c <? base then let (a, b) := run base s' in (c :: a, b) else ([], s)
  | [] => ([], [])
  end.
Lemma run_app base s : fst (run base s) ++ snd (run base s) = s.
Proof.
  induction s as [|c s IH]; simpl; auto. destruct (digit_val c <? base); simpl; auto.
  destruct (run base s); simpl in *. congruence.
Qed.
Lemma digits_run base s : forall acc,
  digits base acc s =
  match fst (run base s) with
  | [] => acc
  | ds => Some (dfold base (match acc with None => 0 | Some a => a end) ds)
  end.
Proof.
  induction s as [|c s IH]; intros acc; simpl; auto.
  destruct (digit_val c <? base) eqn:E; simpl; auto.
  rewrite IH. destruct (run base s) as [[|d ds] r]; simpl; reflexivity.
Qed.
Lemma run_all base s : Forall (fun c => digit_val c < base) (fst (run base s)).
Proof.
  induction s as [|c s IH]; simpl; auto. destruct (digit_val c <? base) eqn:E; simpl; auto.
  destruct (run base s); simpl in *. constructor; auto. lia.
Qed.
Lemma run_rest base s : base <= 16 -> ~ starts_with_digit base (snd (run base s)).
Proof.
  intros Hb. induction s as [|c s IH]; simpl.
  - intros (c & v & r & E & _). discriminate.
  - destruct (digit_val c <? base) eqn:E; simpl.
    + destruct (run base s); simpl in *. exact IH.
    + intros (c' & v & r & Q & D). injection Q as <- <-. apply is_digit_spec in D; lia.
Qed.
Lemma run_unique base ds rest : base <= 16 ->
  Forall (fun c => digit_val c < base) ds -> ~ starts_with_digit base rest ->
  run base (ds ++ rest) = (ds, rest).
Proof.
  intros Hb F N. induction F as [|c ds Hc F IH]; simpl.
  - destruct rest as [|c r]; auto. simpl. destruct (digit_val c <? base) eqn:E; auto.
    exfalso. apply N. exists c, (digit_val c), r. split; auto. apply is_digit_spec; lia.
  - destruct (digit_val c <? base) eqn:E; [|lia]. rewrite IH. reflexivity.
Qed.
Lemma numeral_spec base ds n : base <= 16 ->
  (numeral base ds n <->
   ds <> [] /\ Forall (fun c => digit_val c < base) ds /\ n = dfold base 0 ds).
Proof.
  intros Hb. split.
  - induction 1 as [c v D|ds c n v N IH D].
    + apply is_digit_spec in D as [<- D]; auto. split; [discriminate|]. split; [auto|].
      unfold dfold; simpl; lia.
    + apply is_digit_spec in D as [<- D]; auto. destruct IH as (H1 & H2 & ->). split; [|split].
      * destruct ds; discriminate.
      * apply Forall_app; auto.
      * unfold dfold. rewrite fold_left_app. reflexivity.
  - intros (H1 & H2 & ->). induction ds as [|c ds IH] using rev_ind; [congruence|].
    apply Forall_app in H2 as [H2 H3]. inversion H3; subst.
    destruct ds as [|d ds].
    + simpl. replace (dfold base 0 [c]) with (digit_val c) by (unfold dfold; simpl; lia).
      constructor. apply is_digit_spec; auto.
    + unfold dfold in *. rewrite fold_left_app. simpl fold_left at 1.
      apply num_snoc; [apply IH; auto; discriminate|]. apply is_digit_spec; auto.
Qed.

Lemma digits_numeral base s n : base <= 16 ->
  (digits base None s = Some n <->
   exists ds rest, s = ds ++ rest /\ numeral base ds n /\ ~ starts_with_digit base rest).
Proof.
  intros Hb. rewrite digits_run. split.
  - intros H. pose proof (run_app base s) as A. pose proof (run_all base s) as F.
    pose proof (run_rest base s Hb) as R. destruct (run base s) as [ds rest]; simpl in *.
    exists ds, rest. split; auto. split; auto. apply numeral_spec; auto.
    destruct ds; [discriminate|]. split; [discriminate|]. split; auto. injection H as <-. reflexivity.
  - intros (ds & rest & -> & N & R). apply numeral_spec in N as (N1 & N2 & ->); auto.
    rewrite run_unique; auto. cbn [fst]. destruct ds; [congruence|reflexivity].
Qed.

Lemma dv0 : digit_val "0" = 0. Proof. reflexivity. Qed.
Lemma dvx x : In x (T "xX") -> digit_val x = 99.
Proof. intros [<-|[<-|[]]]; reflexivity. Qed.
Lemma isx x : ch_eqb x "x" || ch_eqb x "X" = true <-> In x (T "xX").
Proof.
  rewrite orb_true_iff, !ch_eqb_eq. simpl. intuition congruence.
Qed.

Definition hexcase (s : str) : bool :=
  match s with
  | z :: x :: h :: _ => ch_eqb z "0" && (ch_eqb x "x" || ch_eqb x "X") && (digit_val h <? 16)
  | _ => false
  end.
Definition zerocase (s : str) : bool := match s with z :: _ => ch_eqb z "0" | [] => false end.
Lemma magnitude_cases s : magnitude s =
  if hexcase s then digits 16 None (skipn 2 s)
  else if zerocase s then digits 8 None s else digits 10 None s.
Proof.
  destruct s as [|z [|x [|h r]]]; try reflexivity;
  unfold magnitude, hexcase, zerocase; destruct (ch_eqb z "0"); reflexivity.
Qed.

Lemma starts_hex t : starts_with_digit 16 t <-> exists h r, t = h :: r /\ digit_val h < 16.
Proof.
  split.
  - intros (c & v & r & -> & D). apply is_digit_spec in D; [|lia]. exists c, r. split; auto. lia.
  - intros (h & r & -> & D). exists h, (digit_val h), r. split; auto. apply is_digit_spec; lia.
Qed.

Lemma magnitude_spec s n : magnitude s = Some n <-> unsigned_literal s n.
Proof.
  rewrite magnitude_cases. split.
  - destruct (hexcase s) eqn:HX.
    + intros H. destruct s as [|z [|x [|h r]]]; try discriminate. simpl in HX.
      rewrite !andb_true_iff in HX. destruct HX as [[Hz Hx] Hh].
      apply ch_eqb_eq in Hz. subst z. apply isx in Hx.
      simpl skipn in H. apply digits_numeral in H as (ds & rest & E & N & R); [|lia].
      rewrite E. apply lit_hex; auto.
    + destruct (zerocase s) eqn:ZX.
      * intros H. destruct s as [|z s]; [discriminate|]. simpl in ZX. apply ch_eqb_eq in ZX. subst z.
        apply digits_numeral in H as (ds & rest & E & N & R); [|lia].
        assert (Q : exists ds', ds = "0"%char :: ds').
        { apply numeral_spec in N as (N1 & _ & _); [|lia]. destruct ds as [|d ds']; [congruence|].
          simpl in E. injection E as <- E. eauto. }
        destruct Q as [ds' ->]. simpl in E. injection E as ->.
        apply lit_oct; auto. intros x r -> -> Hx SH. apply starts_hex in SH as (h & r' & -> & Hh).
        simpl in HX. apply isx in Hx. rewrite Hx in HX. simpl in HX. lia.
      * intros H. apply digits_numeral in H as (ds & rest & -> & N & R); [|lia].
        apply lit_dec; auto. apply numeral_spec in N as (N1 & _ & _); [|lia].
        destruct ds as [|d ds]; [congruence|]. simpl in *. intros E. injection E as ->. discriminate.
  - intros U. destruct U as [x ds rest n Hx N R|ds rest n N R NH|ds rest n N NZ R].
    + assert (HX : hexcase ("0"%char :: x :: ds ++ rest) = true).
      { pose proof N as N'. apply numeral_spec in N' as (N1 & N2 & _); [|lia].
        destruct ds as [|h ds]; [congruence|]. simpl. apply isx in Hx. rewrite Hx.
        inversion N2; subst. simpl. lia. }
      rewrite HX. cbn [skipn]. apply digits_numeral; [lia|]. eauto.
    + assert (HX : hexcase ("0"%char :: ds ++ rest) = false).
      { destruct ds as [|d ds]; simpl.
        - destruct rest as [|x [|h r]]; auto.
          destruct (ch_eqb x "x" || ch_eqb x "X") eqn:Q; simpl; auto.
          apply isx in Q. specialize (NH x (h :: r) eq_refl eq_refl Q).
          destruct (digit_val h <? 16) eqn:D; auto. exfalso. apply NH. apply starts_hex.
          exists h, r. split; auto. lia.
        - apply numeral_spec in N as (_ & N2 & _); [|lia]. inversion N2; subst. inversion H2; subst.
          destruct (ds ++ rest); auto.
          destruct (ch_eqb d "x" || ch_eqb d "X") eqn:Q; simpl; auto.
          apply isx in Q. apply dvx in Q. lia. }
      rewrite HX. simpl zerocase. cbn iota. apply digits_numeral; [lia|].
      exists ("0"%char :: ds), rest. auto.
    + assert (ZX : zerocase (ds ++ rest) = false).
      { apply numeral_spec in N as (N1 & _ & _); [|lia]. destruct ds as [|d ds]; [congruence|].
        simpl in *. apply ch_eqb_neq. congruence. }
      assert (HX : hexcase (ds ++ rest) = false).
      { unfold hexcase, zerocase in *. destruct (ds ++ rest) as [|a [|b [|c r]]]; auto. rewrite ZX. reflexivity. }
      rewrite HX, ZX. apply digits_numeral; [lia|]. eauto.
Qed.

Lemma magnitude_nonneg s n : magnitude s = Some n -> 0 <= n.
Proof.
  assert (D : forall base acc s n, 0 <= base -> match acc with Some a => 0 <= a | None => True end ->
              digits base acc s = Some n -> 0 <= n).
  { intros base acc t; revert acc. induction t as [|c t IH]; simpl; intros acc m Hb Ha H.
    - subst acc. auto.
    - destruct (digit_val c <? base).
      + eapply IH; [exact Hb| |exact H]. simpl. pose proof (digit_val_nonneg c).
        destruct acc; nia.
      + subst acc. auto. }
  rewrite magnitude_cases. intros H. destruct (hexcase s); [|destruct (zerocase s)];
  eapply D in H; simpl; auto; lia.
Qed.

Lemma skip_space_app ws u : Forall space ws ->
  (forall c r, u = c :: r -> isspace c = false) -> skip_space (ws ++ u) = u.
Proof.
  intros F H. induction F as [|c ws Hc F IH]; simpl.
  - destruct u as [|c r]; auto. simpl. rewrite (H c r); auto.
  - apply isspace_spec in Hc. rewrite Hc. exact IH.
Qed.
Lemma skip_space_split s : exists ws, s = ws ++ skip_space s /\ Forall space ws.
Proof.
  induction s as [|c s IH]; simpl.
  - exists []. auto.
  - destruct (isspace c) eqn:E.
    + destruct IH as (ws & Q & F). exists (c :: ws). simpl. split; [congruence|].
      constructor; auto. apply isspace_spec; auto.
    + exists []. auto.
Qed.
Lemma unsigned_literal_head u n : unsigned_literal u n ->
  exists c r, u = c :: r /\ isdigit c = true.
Proof.
  destruct 1 as [x ds rest n Hx N R|ds rest n N R NH|ds rest n N NZ R].
  - eauto.
  - eauto.
  - apply numeral_spec in N as (N1 & N2 & _); [|lia]. destruct ds as [|c ds]; [congruence|].
    inversion N2; subst. exists c, (ds ++ rest). split; auto.
    assert (Q : (10 <=? digit_val c) || isdigit c = true).
    { clear. revert c. apply all_chars_b. vm_compute. reflexivity. }
    rewrite orb_true_iff in Q. destruct Q; auto. lia.
Qed.
Lemma isdigit_facts c : isdigit c = true ->
  isspace c = false /\ ch_eqb c "-" = false /\ ch_eqb c "+" = false.
Proof.
  intros H.
  assert (Q : negb (isdigit c) || (negb (isspace c) && negb (ch_eqb c "-") && negb (ch_eqb c "+")) = true).
  { clear. revert c. apply all_chars_b. vm_compute. reflexivity. }
  rewrite H in Q. simpl in Q. rewrite !andb_true_iff, !negb_true_iff in Q. tauto.
Qed.

Definition lit (s : str) : option Z :=
  let (neg, r) := sign (skip_space s) in
  option_map (fun m => if neg then - m else m) (magnitude r).
Lemma lit_denotes s z : lit s = Some z <-> denotes s z.
Proof.
  unfold lit. split.
  - intros H. destruct (skip_space_split s) as (ws & E & F). rewrite E.
    destruct (skip_space s) as [|c r]; simpl in H; [discriminate|].
    destruct (ch_eqb c "-") eqn:M.
    + apply ch_eqb_eq in M. subst c. destruct (magnitude r) eqn:Q; [|discriminate].
      injection H as <-. apply magnitude_spec in Q. apply den_minus; auto.
    + destruct (ch_eqb c "+") eqn:P.
      * apply ch_eqb_eq in P. subst c. destruct (magnitude r) eqn:Q; [|discriminate].
        injection H as <-. apply magnitude_spec in Q. apply den_plus; auto.
      * destruct (magnitude (c :: r)) eqn:Q; [|discriminate].
        injection H as <-. apply magnitude_spec in Q. apply den_plain; auto.
  - intros D. destruct D as [ws u n F U|ws u n F U|ws u n F U].
    + destruct (unsigned_literal_head _ _ U) as (c & r & -> & Hc).
      apply isdigit_facts in Hc as (S1 & S2 & S3).
      rewrite skip_space_app; auto; [|intros c' r' E; injection E as <- <-; auto].
      simpl. rewrite S2, S3. apply magnitude_spec in U. rewrite U. reflexivity.
    + rewrite skip_space_app; auto; [|intros c' r' E; injection E as <- <-; auto].
      simpl. apply magnitude_spec in U. rewrite U. reflexivity.
    + rewrite skip_space_app; auto; [|intros c' r' E; injection E as <- <-; auto].
      simpl. apply magnitude_spec in U. rewrite U. reflexivity.
Qed.
Lemma denotes_det s z1 z2 : denotes s z1 -> denotes s z2 -> z1 = z2.
Proof. rewrite <- !lit_denotes. congruence. Qed.

Lemma stoll_spec s z : stoll s = Some z <-> denotes s z /\ - 2 ^ 63 <= z < 2 ^ 63.
Proof.
  rewrite <- lit_denotes. unfold stoll, lit. destruct (sign (skip_space s)) as [neg r].
  destruct (magnitude r) as [m|]; simpl; [|split; [discriminate|intros [? _]; discriminate]].
  change (2 ^ 63) with 9223372036854775808.
  unfold int_min, int_max.
  destruct (_ && _) eqn:E; split.
  - intros H. injection H as <-. split; auto. lia.
  - tauto.
  - discriminate.
  - intros [H R]. injection H as <-. lia.
Qed.
Lemma stoull_spec s z : stoull s = Some z <->
  exists v, denotes s v /\ Z.abs v < 2 ^ 64 /\ z = v mod 2 ^ 64.
Proof.
  change (2 ^ 64) with two64.
  assert (R : stoull s = match lit s with
     | Some v => if Z.abs v <? two64 then Some (v mod two64) else None | None => None end).
  { unfold stoull, lit. destruct (sign (skip_space s)) as [neg r].
    destruct (magnitude r) as [m|] eqn:Q; simpl; auto. apply magnitude_nonneg in Q.
    unfold uint_max, two64, to_u64.
    destruct neg.
    - destruct (Z.leb_spec m 18446744073709551615), (Z.ltb_spec (Z.abs (-m)) 18446744073709551616); try lia; reflexivity.
    - destruct (Z.leb_spec m 18446744073709551615), (Z.ltb_spec (Z.abs m) 18446744073709551616); try lia; auto.
      rewrite Z.mod_small by lia. reflexivity. }
  rewrite R. split.
  - destruct (lit s) as [v|] eqn:E; [|discriminate]. apply lit_denotes in E.
    destruct (Z.ltb_spec (Z.abs v) two64); [|discriminate]. intros Q. injection Q as <-. eauto.
  - intros (v & D & A & ->). apply lit_denotes in D. rewrite D.
    destruct (Z.ltb_spec (Z.abs v) two64); [reflexivity|lia].
Qed.

(** ** Names *)
Lemma forallb_Forall {A} (p : A -> bool) (P : A -> Prop) l :
  (forall a, p a = true <-> P a) -> (forallb p l = true <-> Forall P l).
Proof.
  intros H. rewrite forallb_forall, Forall_forall. split; intros Q x Hx; apply H; auto.
Qed.
Lemma parseIsValidName_spec s : parseIsValidName s = true <-> identifier s.
Proof.
  unfold identifier, word. destruct s as [|c s].
  - simpl. split; [discriminate|]. intros [[H _] _]. congruence.
  - unfold parseIsValidName. rewrite andb_true_iff, name_start_spec.
    rewrite (forallb_Forall _ _ _ name_char_spec). split.
    + intros [H1 H2]. split; [split; [discriminate|auto]|]. exists c. auto.
    + intros [[_ H1] (c' & E & H2)]. injection E as <-. auto.
Qed.

Fixpoint dotsplit (s : str) : list str :=
  match s with
  | [] => [[]]
  | c :: s' =>
      if ch_eqb c "." then [] :: dotsplit s'
      else match dotsplit s' with w :: ws => (c :: w) :: ws | [] => [[c]] end
  end.
Lemma dotsplit_nonnil s : dotsplit s <> [].
Proof.
  destruct s as [|c s]; simpl; [discriminate|]. destruct (ch_eqb c "."); [discriminate|].
  destruct (dotsplit s); discriminate.
Qed.
Lemma join_cons c w ws : join (T ".") ((c :: w) :: ws) = c :: join (T ".") (w :: ws).
Proof. destruct ws; reflexivity. Qed.
Lemma dotsplit_join s : join (T ".") (dotsplit s) = s.
Proof.
  induction s as [|c s IH]; [reflexivity|]. cbn [dotsplit]. pose proof (dotsplit_nonnil s) as N.
  destruct (ch_eqb c ".") eqn:E.
  - apply ch_eqb_eq in E. subst c. destruct (dotsplit s) as [|w ws]; [congruence|].
    change (join (T ".") ([] :: w :: ws)) with ("."%char :: join (T ".") (w :: ws)). f_equal. exact IH.
  - destruct (dotsplit s) as [|w ws]; [congruence|]. rewrite join_cons. f_equal. exact IH.
Qed.
Lemma word_nodot w : word w -> forallb (fun c => negb (ch_eqb c ".")) w = true.
Proof.
  intros [_ F]. apply forallb_forall. intros c Hc. rewrite Forall_forall in F. specialize (F c Hc).
  apply negb_true_iff, ch_eqb_neq. intros ->. unfold letter_or_underscore, dec_digit in F.
  rewrite <- !memc_In in F. destruct F as [F|F]; vm_compute in F; discriminate.
Qed.
Definition rc (ch : ascii) : bool := name_char ch || ch_eqb ch ".".
Lemma chars_words ws : ws <> [] -> Forall word ws ->
  forallb rc (join (T ".") ws) = true /\
  no_dotdot (join (T ".") ws) = true /\
  ch_eqb (last (join (T ".") ws) " "%char) "." = false /\
  (exists c r, join (T ".") ws = c :: r /\ ch_eqb c "." = false).
Proof.
  assert (W : forall w, word w -> forallb rc w = true /\ no_dotdot w = true /\
     ch_eqb (last w " "%char) "." = false /\ exists c r, w = c :: r /\ ch_eqb c "." = false).
  { intros w Hw. pose proof (word_nodot w Hw) as ND. destruct Hw as [Hn F]. split; [|split; [|split]].
    - apply forallb_forall. intros c Hc. rewrite Forall_forall in F. specialize (F c Hc).
      unfold rc. apply orb_true_iff. left. apply name_char_spec. exact F.
    - clear Hn F. induction w as [|a w IH]; simpl; auto. simpl in ND. apply andb_true_iff in ND as [N1 N2].
      destruct w as [|b w]; auto. rewrite negb_true_iff in N1. rewrite N1. simpl. apply IH. exact N2.
    - destruct (ch_eqb (last w " "%char) ".") eqn:E; auto. exfalso.
      rewrite forallb_forall in ND. assert (In (last w " "%char) w).
      { clear -Hn. induction w as [|a w IH]; [congruence|]. destruct w; [left; reflexivity|].
        right. apply IH. discriminate. }
      apply ND in H. rewrite E in H. discriminate.
    - destruct w as [|c r]; [congruence|]. exists c, r. split; auto. simpl in ND.
      apply andb_true_iff in ND as [ND _]. apply negb_true_iff in ND. exact ND. }
  intros Hn F. induction F as [|w ws Hw F IH]; [congruence|].
  destruct ws as [|w2 ws]; [simpl; apply W; auto|].
  specialize (IH ltac:(discriminate)). destruct IH as (I1 & I2 & I3 & (c2 & r2 & I4 & I5)).
  change (join (T ".") (w :: w2 :: ws)) with (w ++ "."%char :: join (T ".") (w2 :: ws)).
  destruct (W w Hw) as (V1 & V2 & V3 & (c & r & V4 & V5)).
  set (J := join (T ".") (w2 :: ws)) in *. clearbody J. subst J. split; [|split; [|split]].
  - rewrite forallb_app. rewrite V1. change (rc "." && forallb rc (c2 :: r2) = true). rewrite I1. reflexivity.
  - pose proof (word_nodot w Hw) as ND.
    clear V1 V3 V4 V2. revert ND. generalize w as u. induction u as [|a u IH]; intros ND.
    + cbn [app]. change (no_dotdot ("."%char :: c2 :: r2)) with
        (negb (ch_eqb "." "." && ch_eqb c2 ".") && no_dotdot (c2 :: r2)).
      rewrite I5, I2. reflexivity.
    + simpl in ND. apply andb_true_iff in ND as [ND1 ND2]. specialize (IH ND2).
      cbn [app]. destruct (u ++ "."%char :: c2 :: r2) eqn:E.
      * destruct u; discriminate.
      * change (negb (ch_eqb a "." && ch_eqb a0 ".") && no_dotdot (a0 :: l) = true).
        rewrite IH, negb_true_iff in *. rewrite ND1. reflexivity.
  - replace (last (w ++ "."%char :: c2 :: r2) " "%char) with (last (c2 :: r2) " "%char); auto.
    clear. induction w as [|a w IH]; cbn [app]; auto.
    rewrite IH. destruct w; reflexivity.
  - subst w. exists c, (r ++ "."%char :: c2 :: r2). auto.
Qed.
Lemma rc_words s : s <> [] -> forallb rc s = true -> no_dotdot s = true ->
  ch_eqb (last s " "%char) "." = false -> (forall r, s <> "."%char :: r) -> Forall word (dotsplit s).
Proof.
  (* generalised: the words of [s] where the first may be empty only if [s] starts with a dot *)
  assert (G : forall s, s <> [] -> forallb rc s = true -> no_dotdot s = true ->
     ch_eqb (last s " "%char) "." = false ->
     match dotsplit s with
     | [] => False
     | w :: ws => Forall word ws /\
                  Forall (fun c => letter_or_underscore c \/ dec_digit c) w /\
                  (w = [] -> exists r, s = "."%char :: r)
     end).
  { clear s. induction s as [|c s IH]; intros Hn F D La; [congruence|].
    simpl in F. apply andb_true_iff in F as [F1 F2].
    simpl dotsplit. destruct (ch_eqb c ".") eqn:E.
    - apply ch_eqb_eq in E. subst c. destruct s as [|c2 s].
      + discriminate.
      + assert (D2 : no_dotdot (c2 :: s) = true /\ ch_eqb c2 "." = false).
        { change (negb (ch_eqb "." "." && ch_eqb c2 ".") && no_dotdot (c2 :: s) = true) in D.
          apply andb_true_iff in D as [D1 D2]. split; auto. simpl in D1. apply negb_true_iff in D1. exact D1. }
        destruct D2 as [D2 D3].
        specialize (IH ltac:(discriminate) F2 D2 La).
        destruct (dotsplit (c2 :: s)) as [|w ws]; [contradiction|].
        destruct IH as (I1 & I2 & I3). split; [|split; [constructor|eauto]].
        constructor; auto. split; auto. intros ->. destruct (I3 eq_refl) as (r & Q).
        injection Q as -> _. discriminate.
    - unfold rc in F1. rewrite E, orb_false_r in F1. apply name_char_spec in F1.
      destruct s as [|c2 s].
      + simpl. split; [constructor|]. split; [apply Forall_cons; [exact F1|constructor]|discriminate].
      + assert (D2 : no_dotdot (c2 :: s) = true).
        { change (negb (ch_eqb c "." && ch_eqb c2 ".") && no_dotdot (c2 :: s) = true) in D.
          apply andb_true_iff in D as [_ D2]. exact D2. }
        specialize (IH ltac:(discriminate) F2 D2 La).
        destruct (dotsplit (c2 :: s)) as [|w ws]; [contradiction|].
        destruct IH as (I1 & I2 & I3). split; [exact I1|]. split; [apply Forall_cons; assumption|discriminate]. }
  intros Hn F D La Nd. specialize (G s Hn F D La).
  destruct (dotsplit s) as [|w ws]; [contradiction|]. destruct G as (G1 & G2 & G3).
  constructor; auto. split; auto. intros ->. destruct (G3 eq_refl) as (r & Q). apply (Nd r Q).
Qed.

Lemma ref_core s :
  match s with
  | [] => false
  | c :: _ => name_start c && forallb rc s && negb (ch_eqb (last s " "%char) ".") && no_dotdot s
  end = true <-> dotted s.
Proof.
  split.
  - destruct s as [|c s]; [discriminate|]. rewrite !andb_true_iff, negb_true_iff.
    intros [[[H1 H2] H3] H4]. apply name_start_spec in H1.
    exists (dotsplit (c :: s)). split; [apply dotsplit_nonnil|]. split.
    + apply rc_words; auto; [discriminate|]. intros r E. injection E as -> ->.
      apply memc_In in H1. vm_compute in H1. discriminate.
    + split; [symmetry; apply dotsplit_join|]. eauto.
  - intros (ws & W1 & W2 & E & (c & r & -> & Hc)).
    destruct (chars_words ws W1 W2) as (C1 & C2 & C3 & _). rewrite <- E in C1, C2, C3.
    apply name_start_spec in Hc. rewrite Hc, C1, C2, C3. reflexivity.
Qed.
Lemma parseIsValidRefName_spec s : parseIsValidRefName s = true <->
  (dotted s \/ exists s', s = "@"%char :: s' /\ dotted s').
Proof.
  unfold parseIsValidRefName. fold rc. split.
  - intros H. destruct s as [|c s]; [discriminate|].
    destruct (ch_eqb c c_schema) eqn:E.
    + apply ch_eqb_eq in E. subst c. right. exists s. split; auto. apply ref_core. exact H.
    + left. apply ref_core. exact H.
  - intros [H|(s' & -> & H)].
    + pose proof H as H'. apply ref_core in H'. destruct s as [|c s]; [discriminate|].
      destruct (ch_eqb c c_schema) eqn:E; [|exact H'].
      apply ch_eqb_eq in E. subst c. rewrite !andb_true_iff in H'. destruct H' as [[[H1 _] _] _].
      discriminate.
    + change (ch_eqb "@" c_schema) with true. cbn iota. apply ref_core in H. exact H.
Qed.

(** ** Blanks *)
Lemma drop_while_split p s : exists a, s = a ++ drop_while p s /\ forallb p a = true.
Proof.
  induction s as [|c s IH]; simpl; [exists []; auto|].
  destruct (p c) eqn:E; [|exists []; auto].
  destruct IH as (a & Q & F). exists (c :: a). split; simpl; [f_equal; exact Q|rewrite E; exact F].
Qed.
Lemma drop_while_head p s c r : drop_while p s = c :: r -> p c = false.
Proof.
  induction s as [|x s IH]; simpl; [discriminate|]. destruct (p x) eqn:E; auto.
  intros Q. injection Q as <- <-. exact E.
Qed.
Lemma drop_while_id p s : (forall c r, s = c :: r -> p c = false) -> drop_while p s = s.
Proof. destruct s as [|c s]; simpl; auto. intros H. rewrite (H c s); auto. Qed.
Lemma drop_while_app_all p a s : forallb p a = true -> drop_while p (a ++ s) = drop_while p s.
Proof.
  induction a as [|c a IH]; simpl; auto. intros H. apply andb_true_iff in H as [H1 H2].
  rewrite H1. auto.
Qed.
Lemma drop_while_end_split p s : exists b, s = drop_while_end p s ++ b /\ forallb p b = true.
Proof.
  unfold drop_while_end. destruct (drop_while_split p (rev s)) as (a & Q & F).
  exists (rev a). split.
  - rewrite <- rev_app_distr, <- Q, rev_involutive. reflexivity.
  - apply forallb_forall. intros x Hx. rewrite forallb_forall in F. apply F. apply in_rev. exact Hx.
Qed.
Lemma drop_while_end_last p s s' c : drop_while_end p s = s' ++ [c] -> p c = false.
Proof.
  unfold drop_while_end. intros H. apply (f_equal (@rev ascii)) in H.
  rewrite rev_involutive, rev_app_distr in H. simpl in H. eapply drop_while_head; eauto.
Qed.
Lemma drop_while_end_id p s : (forall c r, s = r ++ [c] -> p c = false) -> drop_while_end p s = s.
Proof.
  intros H. unfold drop_while_end. rewrite drop_while_id; [apply rev_involutive|].
  intros c r E. apply (H c (rev r)). apply (f_equal (@rev ascii)) in E.
  rewrite rev_involutive in E. simpl in E. exact E.
Qed.

Lemma forallb_blank a : forallb is_ws a = true <-> Forall blank a.
Proof. apply forallb_Forall, is_ws_spec. Qed.
Lemma not_ws c : is_ws c = false <-> ~ blank c.
Proof. rewrite <- is_ws_spec. destruct (is_ws c); split; intro; try discriminate; auto. exfalso; auto. Qed.

Lemma drop_end_first p s c r : drop_while_end p s = c :: r -> (forall c r, s = c :: r -> p c = false) -> p c = false.
Proof.
  intros H1 H2. destruct (drop_while_end_split p s) as (b & E & _). rewrite H1 in E.
  simpl in E. apply (H2 c (r ++ b) E).
Qed.
Lemma trim_spec s : exists a b, s = a ++ trim s ++ b /\ Forall blank a /\ Forall blank b /\
  first_not blank (trim s) /\ last_not blank (trim s).
Proof.
  unfold trim. destruct (drop_while_split is_ws s) as (a & E1 & F1).
  destruct (drop_while_end_split is_ws (drop_while is_ws s)) as (b & E2 & F2).
  exists a, b. split; [congruence|]. split; [apply forallb_blank; auto|].
  split; [apply forallb_blank; auto|]. split.
  - intros c r H. apply not_ws. eapply drop_end_first; eauto.
    intros c' r' H'. eapply drop_while_head; eauto.
  - intros c r H. apply not_ws. eapply drop_while_end_last; eauto.
Qed.
Lemma trim_id s : first_not blank s -> last_not blank s -> trim s = s.
Proof.
  intros H1 H2. unfold trim. rewrite (drop_while_id is_ws s).
  - apply drop_while_end_id. intros c r E. apply not_ws. eapply H2; eauto.
  - intros c r E. apply not_ws. eapply H1; eauto.
Qed.
Lemma trim_idem s : trim (trim s) = trim s.
Proof. destruct (trim_spec s) as (_ & _ & _ & _ & _ & H1 & H2). apply trim_id; auto. Qed.

(** normalise *)
Definition ws1 (c : ascii) : ascii := if is_repl c then " "%char else c.
Lemma blank_repl c : is_ws c = is_repl c || ch_eqb c " ".
Proof. unfold is_ws, is_repl. destruct (ch_eqb c " "), (ch_eqb c (chr 13)), (ch_eqb c (chr 10)), (ch_eqb c (chr 9)); reflexivity. Qed.
Lemma ws1_space c : ch_eqb (ws1 c) " " = is_ws c.
Proof. rewrite blank_repl. unfold ws1. destruct (is_repl c); reflexivity. Qed.
Lemma ws1_other c : is_ws c = false -> ws1 c = c.
Proof. rewrite blank_repl. unfold ws1. destruct (is_repl c); [discriminate|auto]. Qed.

Lemma squeeze_true_drop s : squeeze true (map ws1 s) = squeeze false (map ws1 (drop_while is_ws s)).
Proof.
  induction s as [|c s IH]; simpl; auto. rewrite ws1_space.
  destruct (is_ws c) eqn:E; simpl; auto. rewrite ws1_space, E. reflexivity.
Qed.
Lemma normalise_squeezed s : squeezed s (normalise s).
Proof.
  unfold normalise. change (squeezed s (squeeze false (map ws1 s))).
  remember (length s) as n eqn:En. revert s En.
  induction n as [n IH] using lt_wf_ind. intros s En. destruct s as [|c s]; [constructor|].
  simpl. rewrite ws1_space. destruct (is_ws c) eqn:E; simpl.
  - rewrite squeeze_true_drop. destruct (drop_while_split is_ws s) as (a & Q & F).
    assert (W : ws1 c = " "%char).
    { pose proof (ws1_space c) as W. rewrite E in W. apply ch_eqb_eq in W. exact W. }
    rewrite W. rewrite Q at 1. change (c :: a ++ drop_while is_ws s) with ((c :: a) ++ drop_while is_ws s).
    apply sq_run.
    + discriminate.
    + constructor; [apply is_ws_spec; auto|apply forallb_blank; auto].
    + intros x r H. apply not_ws. eapply drop_while_head; eauto.
    + apply (IH (length (drop_while is_ws s))); auto.
      assert (length s = length a + length (drop_while is_ws s))%nat by (rewrite <- app_length; congruence).
      simpl in En. lia.
  - rewrite ws1_other by auto. constructor; [apply not_ws; auto|].
    apply (IH (length s)); auto. simpl in En. lia.
Qed.
Lemma squeezed_first s t : squeezed s t -> first_not blank s -> first_not blank t.
Proof.
  intros Q F c r E. subst t. inversion Q; subst.
  - auto.
  - destruct bs as [|b bs]; [congruence|]. inversion H2; subst. exfalso. eapply F; [reflexivity|auto].
Qed.
Lemma squeezed_out s t : squeezed s t -> squeezed t t.
Proof.
  induction 1 as [|c s t H Q IH|bs s t H1 H2 H3 Q IH].
  - constructor.
  - constructor; auto.
  - change (" "%char :: t) with ([" "%char] ++ t) at 1. apply sq_run; auto.
    + discriminate.
    + repeat constructor.
    + exact (squeezed_first s t Q H3).
Qed.
Lemma sq_inv_char c s t : ~ blank c -> squeezed (c :: s) t -> exists t', t = c :: t' /\ squeezed s t'.
Proof.
  intros N Q. remember (c :: s) as u eqn:Eu. destruct Q as [|c2 s2 t2 N2 Q2|bs s2 t2 N1 N2 N3 Q2].
  - discriminate.
  - injection Eu as -> ->. eauto.
  - destruct bs as [|b bs]; [congruence|]. simpl in Eu. injection Eu as -> _. inversion N2; subst. contradiction.
Qed.
Lemma runs_eq bs : forall bs2 s s2, Forall blank bs -> Forall blank bs2 -> first_not blank s ->
  first_not blank s2 -> bs ++ s = bs2 ++ s2 -> s = s2.
Proof.
  induction bs as [|b bs IH]; intros bs2 s s2 F F2 N N2 E.
  - destruct bs2 as [|b2 bs2]; auto. simpl in E. subst s. inversion F2; subst. exfalso.
    eapply N; [reflexivity|auto].
  - destruct bs2 as [|b2 bs2]; simpl in E.
    + subst s2. inversion F; subst. exfalso. eapply N2; [reflexivity|auto].
    + injection E as -> E. inversion F; inversion F2; subst. eapply IH; eauto.
Qed.
Lemma sq_inv_run bs s t : bs <> [] -> Forall blank bs -> first_not blank s ->
  squeezed (bs ++ s) t -> exists t', t = " "%char :: t' /\ squeezed s t'.
Proof.
  intros H1 H2 H3 Q. remember (bs ++ s) as u eqn:Eu.
  destruct Q as [|c2 s2 t2 N2 Q2|bs2 s2 t2 N1 N2 N3 Q2].
  - destruct bs; [congruence|discriminate].
  - destruct bs as [|b bs]; [congruence|]. simpl in Eu. injection Eu as -> _. inversion H2; subst. contradiction.
  - exists t2. split; auto. replace s with s2; auto. eapply runs_eq; [| | | |exact Eu]; auto.
Qed.
Lemma squeezed_det s t1 : squeezed s t1 -> forall t2, squeezed s t2 -> t1 = t2.
Proof.
  induction 1 as [|c s t H Q IH|bs s t H1 H2 H3 Q IH]; intros t2 Q2.
  - inversion Q2 as [| |bs ? ? N]; subst; auto. destruct bs; [congruence|discriminate].
  - apply sq_inv_char in Q2 as (t' & -> & Q'); auto. f_equal. auto.
  - apply sq_inv_run in Q2 as (t' & -> & Q'); auto. f_equal. auto.
Qed.
Lemma normalise_idem s : normalise (normalise s) = normalise s.
Proof.
  eapply squeezed_det; [apply normalise_squeezed|].
  eapply squeezed_out. apply normalise_squeezed.
Qed.

(** ** Ranges *)
Lemma split_at_spec c s a b : split_at c s = Some (a, b) <-> s = a ++ c :: b /\ ~ In c a.
Proof.
  revert a b. induction s as [|x s IH]; intros a b; simpl.
  - split; [discriminate|]. intros [E _]. destruct a; discriminate.
  - destruct (ch_eqb x c) eqn:E.
    + apply ch_eqb_eq in E. subst x. split.
      * intros H. injection H as <- <-. auto.
      * intros [H N]. destruct a as [|y a]; simpl in H.
        -- injection H as ->. reflexivity.
        -- injection H as -> _. exfalso. apply N. left; auto.
    + apply ch_eqb_neq in E. destruct (split_at c s) as [[a' b']|] eqn:Q.
      * split.
        -- intros H. injection H as <- <-. destruct (proj1 (IH a' b') eq_refl) as [-> N]. split; auto.
           simpl. intros [H|H]; auto.
        -- intros [H N]. destruct a as [|y a]; simpl in H; [congruence|]. injection H as -> H.
           assert (Some (a', b') = Some (a, b)) as R.
           { apply IH. split; auto. intros I. apply N. right; auto. }
           congruence.
      * split; [discriminate|]. intros [H N]. destruct a as [|y a]; simpl in H; [congruence|].
        injection H as -> H. exfalso. assert (None = Some (a, b)); [|discriminate].
        apply IH. split; auto. intros I. apply N. right; auto.
Qed.
Lemma split_at_None c s : split_at c s = None <-> ~ In c s.
Proof.
  destruct (split_at c s) as [[a b]|] eqn:E.
  - apply split_at_spec in E as [-> _]. split; [discriminate|]. intros H. exfalso. apply H.
    apply in_or_app. right. left. auto.
  - split; auto. intros _ H. apply in_split in H as (l1 & l2 & ->).
    assert (G : forall l, exists p, split_at c (l ++ c :: l2) = Some p).
    { induction l as [|x l IH]; simpl.
      - rewrite ch_eqb_refl. eauto.
      - destruct (ch_eqb x c); eauto. destruct IH as [[a b] ->]. eauto. }
    destruct (G l1) as [p Hp]. congruence.
Qed.

(** ** Lengths *)
Lemma add_len_spec a b : 0 <= a < two64 -> 0 <= b < two64 -> add_len a b = Z.min (two64 - 1) (a + b).
Proof.
  unfold add_len, max_len, uint_max, two64. intros Ha Hb.
  destruct (Z.leb_spec (18446744073709551615 - b) a); [lia|].
  rewrite to_u64_id; unfold two64; lia.
Qed.
Lemma mul_len_spec a b : 0 <= a < two64 -> 0 < b < two64 -> mul_len a b = Ok (Z.min (two64 - 1) (a * b)).
Proof.
  unfold mul_len, max_len, uint_max, two64. intros Ha Hb.
  destruct (Z.eqb_spec b 0); [lia|].
  pose proof (Z.div_mod (18446744073709551615 - 1) b ltac:(lia)) as D.
  pose proof (Z.mod_pos_bound (18446744073709551615 - 1) b ltac:(lia)) as M.
  set (q := (18446744073709551615 - 1) / b) in *. set (m := (18446744073709551615 - 1) mod b) in *.
  destruct (Z.leb_spec (q + 1) a).
  - f_equal. nia.
  - rewrite to_u64_id; unfold two64; [f_equal; nia|nia].
Qed.

Lemma is_blank_spec c : is_blank c = true <-> (c = " "%char \/ c = "009"%char).
Proof. unfold is_blank. rewrite orb_true_iff, !ch_eqb_eq. reflexivity. Qed.
Lemma parseRange_spec t lo hi : parseRange t = Some (lo, hi) <-> range_text t lo hi.
Proof.
  assert (NB : forall c, is_blank c = false <-> ~ sp_tab c).
  { intros c. unfold sp_tab. rewrite <- is_blank_spec. destruct (is_blank c); split; intro; auto; try discriminate. exfalso; auto. }
  assert (FB : forall b, forallb is_blank b = true <-> Forall sp_tab b).
  { intros b. apply forallb_Forall. intros c. apply is_blank_spec. }
  unfold parseRange. split.
  - destruct (Nat.leb_spec (length t) 3) as [|HL]; [discriminate|].
    destruct t as [|b t]; [discriminate|]. destruct (ch_eqb b "[") eqn:Eb; [|discriminate].
    apply ch_eqb_eq in Eb. subst b. cbn [negb].
    destruct (split_at "," t) as [[a r]|] eqn:S1; [|discriminate].
    destruct (split_at "," r) eqn:S2; [discriminate|].
    destruct (split_at "]" r) as [[h [|]]|] eqn:S3; try discriminate.
    intros H. injection H as <- <-.
    apply split_at_spec in S1 as [-> N1]. apply split_at_None in S2. apply split_at_spec in S3 as [-> N3].
    destruct (drop_while_end_split is_blank a) as (bs & E1 & F1).
    destruct (drop_while_split is_blank h) as (hs & E2 & F2).
    exists a, h. split; [reflexivity|]. split.
    { intros E. apply app_eq_nil in E as [-> ->]. simpl in HL. lia. }
    split; auto. split. { intros I. apply S2. apply in_or_app. auto. }
    split; auto. split.
    + exists bs. split; auto. split; [apply FB; auto|]. intros c r E. apply NB.
      eapply drop_while_end_last; eauto.
    + exists hs. split; auto. split; [apply FB; auto|]. intros c r E. apply NB.
      eapply drop_while_head; eauto.
  - intros (a & h & -> & NE & N1 & N2 & N3 & (bs & E1 & F1 & L1) & (hs & E2 & F2 & L2)).
    destruct (Nat.leb_spec (length (T "[" ++ a ++ T "," ++ h ++ T "]")) 3) as [HL|HL].
    { exfalso. rewrite !app_length in HL. simpl in HL. apply NE.
      destruct a, h; simpl in *; try lia; auto. }
    change (T "[" ++ a ++ T "," ++ h ++ T "]") with ("["%char :: a ++ ","%char :: h ++ ["]"%char]).
    cbn [ch_eqb]. change (ch_eqb "[" "[") with true. cbn [negb].
    assert (S1 : split_at "," (a ++ ","%char :: h ++ ["]"%char]) = Some (a, h ++ ["]"%char])).
    { apply split_at_spec. auto. }
    assert (S2 : split_at "," (h ++ ["]"%char]) = None).
    { apply split_at_None. intros I. apply in_app_or in I as [I|[I|[]]]; [auto|discriminate]. }
    assert (S3 : split_at "]" (h ++ ["]"%char]) = Some (h, [])).
    { apply split_at_spec. auto. }
    rewrite S1, S2, S3. f_equal. f_equal.
    + subst a. unfold drop_while_end. rewrite rev_app_distr, drop_while_app_all.
      * rewrite drop_while_id; [apply rev_involutive|]. intros c r E. apply NB. apply (L1 c (rev r)).
        apply (f_equal (@rev ascii)) in E. rewrite rev_involutive in E. exact E.
      * apply FB in F1. apply forallb_forall. intros x Hx. apply in_rev in Hx.
        rewrite forallb_forall in F1. auto.
    + subst h. rewrite drop_while_app_all by (apply FB; auto).
      apply drop_while_id. intros c r E. apply NB. eapply L2; eauto.
Qed.
Lemma unsigned_spec t z : parseStrToUnsigned t = Some z <->
  exists v, denotes t v /\ Z.abs v < 2 ^ 64 /\ z = v mod 2 ^ 32.
Proof.
  unfold parseStrToUnsigned. destruct (stoull t) as [u|] eqn:E; simpl.
  - pose proof E as E'. apply stoull_spec in E as (v & D & A & ->).
    assert (Q : to_u32 (v mod 2 ^ 64) = v mod 2 ^ 32).
    { unfold to_u32, two32. change (2 ^ 64) with (4294967296 * 4294967296). change (2 ^ 32) with 4294967296.
      rewrite Z.rem_mul_r by lia. rewrite (Z.mul_comm 4294967296 ((v / 4294967296) mod 4294967296)).
      rewrite Z.mod_add by lia. apply Z.mod_mod. lia. }
    split.
    + intros H. injection H as <-. exists v. auto.
    + intros (w & D2 & _ & ->). rewrite (denotes_det _ _ _ D2 D). f_equal; exact Q.
  - split; [discriminate|]. intros (v & D & A & _). exfalso.
    assert (stoull t = Some (v mod 2 ^ 64)); [|congruence]. apply stoull_spec. eauto.
Qed.
Lemma unsigned_small t v : denotes t v -> 0 <= v < 2 ^ 32 -> parseStrToUnsigned t = Some v.
Proof.
  intros D R. apply unsigned_spec. exists v. split; auto. change (2 ^ 32) with 4294967296 in *.
  change (2 ^ 64) with 18446744073709551616. rewrite Z.mod_small by lia. lia.
Qed.
Lemma normalise_spec s t : normalise s = t <-> squeezed s t.
Proof.
  split; [intros <-; apply normalise_squeezed|]. intros H.
  eapply squeezed_det; [apply normalise_squeezed|exact H].
Qed.
Lemma ext_ref_spec t : parseIsValidExternalRefName t = true <->
  exists t', t = "^"%char :: t' /\ (dotted t' \/ exists t'', t' = "@"%char :: t'' /\ dotted t'').
Proof.
  split.
  - unfold parseIsValidExternalRefName. destruct t as [|c [|d t]]; try discriminate.
    rewrite andb_true_iff. intros [H1 H2]. apply ch_eqb_eq in H1. subst c.
    exists (d :: t). split; [reflexivity|]. apply parseIsValidRefName_spec. exact H2.
  - intros (t' & -> & H). apply parseIsValidRefName_spec in H. destruct t' as [|d t']; [discriminate|].
    unfold parseIsValidExternalRefName. rewrite H. reflexivity.
Qed.
