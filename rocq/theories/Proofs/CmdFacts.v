(** Facts about the command line model. *)
From Coq Require Import ZifyBool ZifyNat.
From Verif.Model Require Import Base Common Units GenUtil GenComms ProgOpts.
From Verif.Spec Require Import Texts CmdSpec.
From Verif.Proofs Require Import BaseFacts CommonFacts GenFacts.
Local Open Scope string_scope. Local Open Scope nat_scope. Local Open Scope list_scope.

Lemma find_opt_spec name s opts : forall k i, find_opt name s k opts = Some i -> exists j o, i = k + j /\ nth_error opts j = Some o /\ name o <> [] /\ name o = s.
Proof.
  induction opts as [|o l IH]; intros k i H; [discriminate|]. cbn [find_opt] in H. destruct (find_opt name s (S k) l) as [j0|] eqn:E.
  - injection H as <-. apply IH in E as (j & o' & -> & N & Q). exists (S j), o'. split; [lia|]. auto.
  - destruct (negb (is_nil (name o)) && str_eqb (name o) s) eqn:B; [|discriminate]. injection H as <-. apply andb_true_iff in B as [B1 B2].
    exists 0, o. split; [lia|]. split; [reflexivity|]. apply str_eqb_eq in B2. split; [destruct (name o); [discriminate|discriminate]|exact B2].
Qed.
Lemma find_opt_None name s opts : forall k, find_opt name s k opts = None <-> forall j o, nth_error opts j = Some o -> name o <> [] -> name o <> s.
Proof.
  induction opts as [|o l IH]; intros k; cbn [find_opt].
  - split; [intros _ j o H; destruct j; discriminate|reflexivity].
  - specialize (IH (S k)). destruct (find_opt name s (S k) l) as [j0|] eqn:E.
    + split; [discriminate|]. intros H. exfalso. apply find_opt_spec in E as (j & o' & _ & N & Q1 & Q2). exact (H (S j) o' N Q1 Q2).
    + destruct (negb (is_nil (name o)) && str_eqb (name o) s) eqn:B.
      * split; [discriminate|]. intros H. exfalso. apply andb_true_iff in B as [B1 B2]. apply str_eqb_eq in B2.
        apply (H 0 o eq_refl); [destruct (name o); [discriminate|discriminate]|exact B2].
      * split; [|reflexivity]. intros _ j o' N Q1 Q2. destruct j as [|j]; [|exact (proj1 IH eq_refl j o' N Q1 Q2)].
        injection N as <-. apply andb_false_iff in B as [B|B]; [destruct (name o); [congruence|discriminate]|]. apply str_eqb_neq in B. contradiction.
Qed.

(** options that differ in value and use only *)
Definition same_decl (o o' : opt_info) : Prop := o_short o = o_short o' /\ o_long o = o_long o' /\ o_hasParam o = o_hasParam o'.
Definition same_table (l l' : list opt_info) : Prop := Forall2 same_decl l l'.
Lemma same_refl l : same_table l l.
Proof. induction l; constructor; auto. now repeat split. Qed.
Lemma same_trans a b c : same_table a b -> same_table b c -> same_table a c.
Proof.
  intros H. revert c. induction H as [|x y a b (E1 & E2 & E3) H IH]; intros c K; inversion K as [|? z ? c' (F1 & F2 & F3) K']; subst; constructor; [repeat split; congruence|now apply IH].
Qed.
Lemma same_update i f l : (forall o, same_decl o (f o)) -> same_table l (update_nth i f l).
Proof.
  intros F. revert i. induction l as [|o l IH]; intros [|i]; cbn [update_nth]; constructor; auto; [apply same_refl|now repeat split|apply IH].
Qed.
Lemma same_nth l l' i o : same_table l l' -> nth_error l i = Some o -> exists o', nth_error l' i = Some o' /\ same_decl o o'.
Proof.
  intros H. revert i. induction H as [|x y l l' E H IH]; intros [|i] N; try discriminate; [injection N as <-; exists y; auto|apply IH; exact N].
Qed.
Lemma same_sym l l' : same_table l l' -> same_table l' l.
Proof. intros H. induction H as [|x y l l' (E1 & E2 & E3) H IH]; constructor; auto. now repeat split. Qed.
Lemma same_names l l' t i : same_table l l' -> names_option l t i -> names_option l' t i.
Proof. intros H (o & N & Q). destruct (same_nth _ _ _ _ H N) as (o' & N' & E1 & E2 & E3). exists o'. split; [exact N'|]. now rewrite <- E1, <- E2. Qed.
Lemma same_takes l l' i b : same_table l l' -> takes_value l i b -> takes_value l' i b.
Proof. intros H (o & N & Q). destruct (same_nth _ _ _ _ H N) as (o' & N' & E1 & E2 & E3). exists o'. split; [exact N'|]. now rewrite <- E3. Qed.
Lemma same_reads l l' ts es : same_table l l' -> reads l ts es -> reads l' ts es.
Proof.
  intros H R. pose proof (same_sym _ _ H) as H'. induction R; [constructor|constructor 2|econstructor 3|econstructor 4|econstructor 5|constructor 6]; auto;
    try (eapply same_names; eassumption); try (eapply same_takes; eassumption).
  intros i K. apply (H1 i). eapply same_names; eauto.
Qed.
Lemma same_clear l l' : same_table l l' -> clear_names l -> clear_names l'.
Proof.
  intros H [C1 C2]. split.
  - intros o I. apply In_nth_error in I as [i N]. destruct (same_nth _ _ _ _ (same_sym _ _ H) N) as (o' & N' & E1 & _ & _). rewrite E1. apply C1. eapply nth_error_In; eauto.
  - intros t i j A B. apply (C2 t); eapply same_names; try eassumption; now apply same_sym.
Qed.

(** what an event does *)
Definition apply_event (st : parse_state) (e : event) : parse_state :=
  match e with
  | Flag i => mkPS (update_nth i set_used (p_opts st)) (p_args st) (p_unknown st) None
  | Given i v => mkPS (update_nth i (set_value v) (update_nth i set_used (p_opts st))) (p_args st) (p_unknown st) None
  | Missing i => mkPS (update_nth i set_used (p_opts st)) (p_args st) (p_unknown st) (Some i)
  | Arg t => mkPS (p_opts st) (p_args st ++ [t]) (p_unknown st) None
  | Unknown t => mkPS (p_opts st) (p_args st) (p_unknown st ++ [t]) None
  end.
Lemma same_apply st e : same_table (p_opts st) (p_opts (apply_event st e)).
Proof.
  destruct e; cbn; try apply same_refl; try (apply same_update; intros o; now repeat split).
  eapply same_trans; apply same_update; intros o; now repeat split.
Qed.
(** the option an argument names *)
Lemma process_short opts c r : clear_names opts -> c <> "-"%char ->
  match find_opt o_short (c :: r) 0 opts with
  | Some i => names_option opts (T "-" ++ c :: r) i
  | None => forall i, ~ names_option opts (T "-" ++ c :: r) i
  end.
Proof.
  intros [C _] D. destruct (find_opt o_short (c :: r) 0 opts) as [i|] eqn:E.
  - apply find_opt_spec in E as (j & o & -> & N & Q1 & Q2). exists o. split; [exact N|]. left. split; [exact Q1|]. now rewrite Q2.
  - intros i (o & N & [[Q1 Q2]|[Q1 Q2]]).
    + apply (proj1 (find_opt_None _ _ _ _) E i o N Q1). apply app_inv_head in Q2. now symmetry.
    + cbn in Q2. injection Q2 as Q2 _. exact (D Q2).
Qed.
Lemma process_long opts r : clear_names opts ->
  match find_opt o_long r 0 opts with
  | Some i => names_option opts (T "--" ++ r) i
  | None => forall i, ~ names_option opts (T "--" ++ r) i
  end.
Proof.
  intros [C _]. destruct (find_opt o_long r 0 opts) as [i|] eqn:E.
  - apply find_opt_spec in E as (j & o & -> & N & Q1 & Q2). exists o. split; [exact N|]. right. split; [exact Q1|]. now rewrite Q2.
  - intros i (o & N & [[Q1 Q2]|[Q1 Q2]]).
    + destruct (C o (nth_error_In _ _ N)) as [K|(c & K & Kc)]; [contradiction|]. rewrite K in Q2. cbn in Q2. injection Q2 as Q2 _. congruence.
    + apply (proj1 (find_opt_None _ _ _ _) E i o N Q1). apply app_inv_head in Q2. now symmetry.
Qed.
Lemma process_cases opts t : clear_names opts -> dashed t -> 
  exists d, forall st, p_wait st = None -> p_opts st = opts ->
   (d = None /\ (forall i, ~ names_option opts t i) /\ parse_token st t = apply_event st (Unknown t)) \/
   (exists i o, d = Some i /\ names_option opts t i /\ nth_error opts i = Some o /\
      parse_token st t = if o_hasParam o then apply_event st (Missing i) else apply_event st (Flag i)).
Proof.
  intros C [r ->].
  assert (P : forall name s tok (st : parse_state), p_wait st = None -> p_opts st = opts ->
     match find_opt name s 0 opts with Some i => names_option opts tok i | None => forall i, ~ names_option opts tok i end ->
     (find_opt name s 0 opts = None /\ (forall i, ~ names_option opts tok i) /\ process_opt name s tok st = apply_event st (Unknown tok)) \/
     (exists i o, find_opt name s 0 opts = Some i /\ names_option opts tok i /\ nth_error opts i = Some o /\
        process_opt name s tok st = if o_hasParam o then apply_event st (Missing i) else apply_event st (Flag i))).
  { intros name s tok st W E Q. unfold process_opt. rewrite E. destruct (find_opt name s 0 opts) as [i|] eqn:F.
    - right. apply find_opt_spec in F as (j & o & -> & N & _). cbn [Nat.add] in *. exists j, o. rewrite N. split; [reflexivity|]. split; [exact Q|]. split; [reflexivity|].
      destruct (o_hasParam o); cbn; now rewrite E.
    - left. split; [reflexivity|]. split; [exact Q|]. cbn. now rewrite E, W. }
  destruct r as [|c r].
  - exists None. intros st W E. left. split; [reflexivity|]. split; [|cbn; now rewrite W].
    intros i (o & N & [[Q1 Q2]|[Q1 Q2]]); [|discriminate Q2]. destruct (o_short o); [congruence|discriminate Q2].
  - destruct (ascii_dec c "-") as [->|D].
    + exists (find_opt o_long r 0 opts). intros st W E. pose proof (P o_long r ("-" :: "-" :: r)%char st W E (process_long opts r C)) as Q.
      unfold parse_token. rewrite W. cbn [ch_eqb Ascii.eqb negb Bool.eqb]. exact Q.
    + exists (find_opt o_short (c :: r) 0 opts). intros st W E. pose proof (P o_short (c :: r) ("-" :: c :: r)%char st W E (process_short opts c r C D)) as Q.
      unfold parse_token. rewrite W. replace (ch_eqb "-" "-") with true by reflexivity. cbn [negb].
      replace (ch_eqb c "-") with false; [exact Q|]. symmetry. apply Ascii.eqb_neq. exact D.
Qed.
Lemma parse_reads : forall n opts argv st, length argv <= n -> clear_names opts -> Forall (fun t => t <> []) argv -> p_wait st = None -> p_opts st = opts ->
  exists es, reads opts argv es /\ fold_left parse_token argv st = fold_left apply_event es st.
Proof.
  induction n as [|n IH]; intros opts argv st Hn C F W E.
  - destruct argv; [|cbn in Hn; lia]. exists []. split; [constructor|reflexivity].
  - destruct argv as [|t ts]; [exists []; split; [constructor|reflexivity]|]. inversion F as [|? ? Ft Fs]. subst x l. cbn in Hn.
    assert (Step : forall e ts0, length ts0 <= n -> Forall (fun t => t <> []) ts0 -> p_wait (apply_event st e) = None ->
       exists es, reads opts ts0 es /\ fold_left parse_token ts0 (apply_event st e) = fold_left apply_event es (apply_event st e)).
    { intros e ts0 Hl Fl We. pose proof (same_apply st e) as S. rewrite E in S.
      destruct (IH _ ts0 (apply_event st e) Hl (same_clear _ _ S C) Fl We eq_refl) as (es & R & Q).
      exists es. split; [eapply same_reads; [apply same_sym; exact S|exact R]|exact Q]. }
    destruct (ascii_dec (hd "-"%char t) "-") as [D|D].
    + assert (Dt : dashed t) by (destruct t as [|c r]; [congruence|cbn in D; subst; eexists; reflexivity]).
      destruct (process_cases opts t C Dt) as [d Q]. destruct (Q st W E) as [(_ & N & P)|(i & o & _ & N & No & P)]; clear Q.
      * destruct (Step (Unknown t) ts ltac:(lia) Fs eq_refl) as (es & R & P'). exists (Unknown t :: es). split; [now constructor 6|]. cbn [fold_left]. now rewrite P.
      * destruct (o_hasParam o) eqn:Ho.
        -- destruct ts as [|v ts].
           ++ exists [Missing i]. split; [constructor; [exact N|exists o; auto]|]. cbn [fold_left]. exact P.
           ++ inversion Fs as [|? ? Fv Fs']. subst x l. cbn in Hn.
              destruct (Step (Given i v) ts ltac:(lia) Fs' eq_refl) as (es & R & P'). exists (Given i v :: es). split; [constructor 4; [exact N|exists o; auto|exact R]|].
              cbn [fold_left]. rewrite P. destruct v as [|c v]; [congruence|]. unfold parse_token at 2. cbn [apply_event p_wait p_opts p_args p_unknown]. exact P'.
        -- destruct (Step (Flag i) ts ltac:(lia) Fs eq_refl) as (es & R & P'). exists (Flag i :: es). split; [constructor 3; [exact N|exists o; auto|exact R]|]. cbn [fold_left]. now rewrite P.
    + destruct t as [|c r]; [congruence|]. cbn [hd] in D.
      assert (Dt : ~ dashed (c :: r)) by (intros [r' K]; injection K as K _; contradiction).
      destruct (Step (Arg (c :: r)) ts ltac:(lia) Fs eq_refl) as (es & R & P'). exists (Arg (c :: r) :: es). split; [now constructor 2|]. cbn [fold_left].
      assert (parse_token st (c :: r) = apply_event st (Arg (c :: r))) as ->; [|exact P'].
      unfold parse_token. rewrite W. replace (ch_eqb c "-") with false; [reflexivity|]. symmetry. apply Ascii.eqb_neq. exact D.
Qed.
Lemma names_dashed opts t i : names_option opts t i -> dashed t.
Proof. intros (o & _ & [[_ ->]|[_ ->]]); eexists; reflexivity. Qed.
Lemma takes_det opts i b b' : takes_value opts i b -> takes_value opts i b' -> b = b'.
Proof. intros (o & N & <-) (o' & N' & <-). congruence. Qed.
Lemma reads_det opts ts es : clear_names opts -> reads opts ts es -> forall es', reads opts ts es' -> es' = es.
Proof.
  intros [_ C] R. induction R as [|t ts es D R IH|t i ts es N V R IH|t i v ts es N V R IH|t i N V|t ts es D N R IH]; intros es' R'; inversion R'; subst; auto;
    try (exfalso; eauto using names_dashed; fail);
    try (exfalso; match goal with A : names_option _ ?t ?i, B : forall i, ~ names_option _ ?t i |- _ => exact (B i A) end);
    try (match goal with A : names_option _ ?t ?i, B : names_option _ ?t ?j |- _ => pose proof (C _ _ _ A B); subst end);
    try (match goal with A : takes_value _ ?i true, B : takes_value _ ?i false |- _ => pose proof (takes_det _ _ _ _ A B); discriminate end);
    try (f_equal; now apply IH); try reflexivity.
Qed.
(** results *)
Lemma nth_update {A} (f : A -> A) l : forall i j, nth_error (update_nth i f l) j = if Nat.eqb i j then option_map f (nth_error l j) else nth_error l j.
Proof.
  induction l as [|x l IH]; intros [|i] [|j]; cbn [update_nth nth_error Nat.eqb option_map]; auto; [destruct (Nat.eqb i j); reflexivity].
Qed.
Lemma run_args es : forall st, p_args (fold_left apply_event es st) = p_args st ++ input_args es.
Proof. induction es as [|e es IH]; intros st; cbn [fold_left]; [now rewrite app_nil_r|]. rewrite IH. destruct e; cbn; try reflexivity. now rewrite <- app_assoc. Qed.
Lemma run_unknown es : forall st, p_unknown (fold_left apply_event es st) = p_unknown st ++ unknown_args es.
Proof. induction es as [|e es IH]; intros st; cbn [fold_left]; [now rewrite app_nil_r|]. rewrite IH. destruct e; cbn; try reflexivity. now rewrite <- app_assoc. Qed.
Lemma run_opts es : forall st i o, nth_error (p_opts st) i = Some o -> exists o', nth_error (p_opts (fold_left apply_event es st)) i = Some o' /\ same_decl o o' /\
  (o_used o' = true <-> o_used o = true \/ was_used i es) /\ value_of i es (o_value o) (o_value o').
Proof.
  induction es as [|e es IH]; intros st i o N; cbn [fold_left].
  - exists o. split; [exact N|]. split; [now repeat split|]. split; [unfold was_used; cbn; firstorder|]. right. split; [intros w []|reflexivity].
  - assert (exists o1, nth_error (p_opts (apply_event st e)) i = Some o1 /\ same_decl o o1 /\ (o_used o1 = true <-> o_used o = true \/ was_used i [e]) /\
       value_of i [e] (o_value o) (o_value o1)) as (o1 & N1 & S1 & U1 & V1).
    { assert (Same : (forall v, e <> Given i v) -> e <> Flag i -> e <> Missing i -> nth_error (p_opts (apply_event st e)) i = Some o -> 
         exists o1, nth_error (p_opts (apply_event st e)) i = Some o1 /\ same_decl o o1 /\ (o_used o1 = true <-> o_used o = true \/ was_used i [e]) /\ value_of i [e] (o_value o) (o_value o1)).
      { intros A B D K. exists o. split; [exact K|]. split; [now repeat split|]. split.
        - unfold was_used. cbn [In]. split; [auto|]. intros [Q|[[Q|[]]|[[Q|[]]|(v & [Q|[]])]]]; auto; exfalso; first [exact (B Q)|exact (D Q)|exact (A v Q)].
        - right. split; [|reflexivity]. intros w [Q|[]]. exact (A w Q). }
      destruct e as [j|j v|j|t|t]; cbn [apply_event p_opts] in *; rewrite ?nth_update in *.
      - destruct (Nat.eqb j i) eqn:E; [apply Nat.eqb_eq in E; subst j|apply Nat.eqb_neq in E; apply Same; try congruence].
        rewrite N. cbn. eexists; split; [reflexivity|]. split; [now repeat split|]. split; [unfold was_used; cbn; intuition|]. right. split; [intros w [Q|[]]; discriminate|reflexivity].
      - destruct (Nat.eqb j i) eqn:E; [apply Nat.eqb_eq in E; subst j|apply Nat.eqb_neq in E; apply Same; try congruence].
        rewrite N. cbn. eexists; split; [reflexivity|]. split; [now repeat split|]. split; [unfold was_used; cbn; split; [intros _; right; right; right; eauto|reflexivity]|].
        left. exists [], []. split; [reflexivity|intros w []].
      - destruct (Nat.eqb j i) eqn:E; [apply Nat.eqb_eq in E; subst j|apply Nat.eqb_neq in E; apply Same; try congruence].
        rewrite N. cbn. eexists; split; [reflexivity|]. split; [now repeat split|]. split; [unfold was_used; cbn; intuition|]. right. split; [intros w [Q|[]]; discriminate|reflexivity].
      - apply Same; try congruence.
      - apply Same; try congruence. }
    destruct (IH _ _ _ N1) as (o2 & N2 & S2 & U2 & V2). exists o2. split; [exact N2|]. split.
    { destruct S1 as (A1 & A2 & A3), S2 as (B1 & B2 & B3). repeat split; congruence. }
    split.
    { rewrite U2, U1. unfold was_used. cbn [In]. split.
      - intros [[Q|[[Q|[]]|[[Q|[]]|(v & [Q|[]])]]]|[Q|[Q|(v & Q)]]]; auto; right; auto; right; right; exists v; auto.
      - intros [Q|[[Q|Q]|[[Q|Q]|(v & [Q|Q])]]]; auto 6; first [left; right; right; right; eexists; left; exact Q|right; right; right; eexists; exact Q]. }
    destruct V2 as [(a & b & -> & V2)|[V2 E2]].
    + left. exists (e :: a), b. split; [reflexivity|exact V2].
    + rewrite E2. destruct V1 as [(a & b & Q & V1)|[V1 E1]].
      * left. exists [], es. split; [|exact V2]. destruct a as [|x a]; [injection Q as -> _; reflexivity|injection Q as _ Q; destruct a; discriminate].
      * right. split; [|exact E1]. intros w [Q|Q]; [apply (V1 w); now left|exact (V2 w Q)].
Qed.

(** splitting *)
Definition cut_any (chars : str) : str -> str * option str :=
  fix cut (t : str) : str * option str :=
  match t with
  | [] => ([], None)
  | d :: t' => if existsb (ch_eqb d) chars then ([], Some t') else let '(b, a) := cut t' in (d :: b, a)
  end.
Lemma cut_any_cons chars d t : cut_any chars (d :: t) = if existsb (ch_eqb d) chars then ([], Some t) else let '(b, a) := cut_any chars t in (d :: b, a).
Proof. reflexivity. Qed.
Lemma existsb_ch chars d : existsb (ch_eqb d) chars = true <-> In d chars.
Proof. rewrite existsb_exists. split; [intros (x & I & E); apply ch_eqb_eq in E; now subst|intros I; exists d; split; [exact I|now apply ch_eqb_eq]]. Qed.
Lemma existsb_nch chars d : existsb (ch_eqb d) chars = false <-> ~ In d chars.
Proof. rewrite <- existsb_ch. destruct (existsb (ch_eqb d) chars); split; congruence. Qed.
Lemma cut_any_spec chars t : (forall c, In c (fst (cut_any chars t)) -> ~ In c chars) /\
  match snd (cut_any chars t) with
  | None => t = fst (cut_any chars t)
  | Some r => exists c, In c chars /\ t = fst (cut_any chars t) ++ c :: r
  end.
Proof.
  induction t as [|d t [IH1 IH2]]; [split; [intros c []|reflexivity]|]. rewrite cut_any_cons. destruct (existsb (ch_eqb d) chars) eqn:E.
  - apply existsb_ch in E. split; [intros c []|]. exists d. auto.
  - apply existsb_nch in E. destruct (cut_any chars t) as [b a]. cbn [fst snd] in *. split; [intros c [<-|I]; [exact E|now apply IH1]|].
    destruct a as [r|]; [destruct IH2 as (c & I & ->); exists c; auto|now rewrite IH2 at 1].
Qed.
Lemma split_any_step n chars compressed c s : split_any_loop (S n) chars compressed (c :: s) =
  if compressed && existsb (ch_eqb c) chars then split_any_loop n chars compressed s
  else match snd (cut_any chars (c :: s)) with
       | None => Ok [fst (cut_any chars (c :: s))]
       | Some t => r <- split_any_loop n chars compressed t ;; Ok (fst (cut_any chars (c :: s)) :: r)
       end.
Proof.
  rewrite cut_any_cons. cbn [split_any_loop]. destruct (compressed && existsb (ch_eqb c) chars); [reflexivity|]. destruct (existsb (ch_eqb c) chars); [reflexivity|].
  change ((fix cut (t : str) : str * option str := match t with [] => ([], None) | d :: t' => if existsb (ch_eqb d) chars then ([], Some t') else let '(b, a) := cut t' in (d :: b, a) end) s)
    with (cut_any chars s). destruct (cut_any chars s) as [b a]. destruct a; reflexivity.
Qed.
Lemma split_any_tokens chars : forall n s, length s < n -> exists ts, split_any_loop n chars true s = Ok ts /\ tokens chars s ts.
Proof.
  induction n as [|n IH]; intros s Hn; [lia|]. destruct s as [|c s]; [exists []; split; [reflexivity|constructor]|]. rewrite split_any_step. cbn [andb].
  destruct (existsb (ch_eqb c) chars) eqn:E.
  - cbn in Hn. destruct (IH s ltac:(lia)) as (ts & Q & K). exists ts. split; [exact Q|]. constructor; [now apply existsb_ch|exact K].
  - pose proof (cut_any_spec chars (c :: s)) as [A B].
    assert (NE : fst (cut_any chars (c :: s)) <> []) by (rewrite cut_any_cons; rewrite E; destruct (cut_any chars s); discriminate).
    destruct (cut_any chars (c :: s)) as [b [r|]]; cbn [fst snd] in *.
    + destruct B as (d & I & B). assert (length (c :: s) = length (b ++ d :: r)) as LL by now rewrite B. rewrite app_length in LL. cbn in LL, Hn.
      destruct (IH r ltac:(lia)) as (ts & Q & K). exists (b :: ts). rewrite Q. cbn [bind]. split; [reflexivity|]. rewrite B. now constructor 4.
    + exists [b]. split; [reflexivity|]. rewrite B. now constructor 3.
Qed.
Lemma split_tokens s chars : exists ts, genStrSplitByAnyChar s chars true = Ok ts /\ tokens chars s ts.
Proof. apply split_any_tokens. lia. Qed.
Lemma free_prefix (seps : txt) : forall a a' c s r, (forall d, In d a -> ~ In d seps) -> (forall d, In d a' -> ~ In d seps) -> In c seps -> 
  a ++ c :: s = a' ++ r -> exists a1, a = a' ++ a1 /\ r = a1 ++ c :: s.
Proof.
  intros a a'. revert a. induction a' as [|x a' IH]; intros a c s r F F' I E; [exists a; auto|].
  destruct a as [|y a]; cbn in E; injection E as E1 E2.
  - subst x. exfalso. exact (F' c (or_introl eq_refl) I).
  - subst y. destruct (IH a c s r (fun d K => F d (or_intror K)) (fun d K => F' d (or_intror K)) I E2) as (a1 & -> & ->). exists a1. auto.
Qed.
Lemma tokens_det seps s ts : tokens seps s ts -> forall ts', tokens seps s ts' -> ts' = ts.
Proof.
  induction 1 as [|c s ts I H IH|t Ht F|t c s ts Ht F I H IH]; intros ts' K.
  - inversion K as [| |t' Ht' F' E|t' c' s' us Ht' F' I' K' E]; subst; auto; [congruence|destruct t'; discriminate].
  - inversion K as [|c' s' us I' K' E|t' Ht' F' E|t' c' s' us Ht' F' I' K' E]; subst; auto.
    + exfalso. exact (F' c (or_introl eq_refl) I).
    + destruct t' as [|x t']; [congruence|]. cbn in E. injection E as -> _. exfalso. exact (F' c (or_introl eq_refl) I).
  - inversion K as [E|c' s' us I' K' E|t' Ht' F' E|t' c' s' us Ht' F' I' K' E]; subst; auto; [congruence| |].
    + exfalso. exact (F c' (or_introl eq_refl) I').
    + exfalso. apply (F c'); [apply in_or_app; right; left; reflexivity|exact I'].
  - inversion K as [E|c' s' us I' K' E|t' Ht' F' E|t' c' s' us Ht' F' I' K' E]; subst.
    + destruct t; discriminate.
    + destruct t as [|x t]; [congruence|]. cbn in E. injection E as -> _. exfalso. exact (F x (or_introl eq_refl) I').
    + exfalso. apply (F' c); [apply in_or_app; right; left; reflexivity|exact I].
    + symmetry in E. destruct (free_prefix seps t t' c s (c' :: s') F F' I E) as (a1 & -> & E1). destruct a1 as [|y a1].
      * cbn in E1. injection E1 as -> ->. rewrite app_nil_r in *. f_equal. now apply IH.
      * cbn in E1. injection E1 as -> _. exfalso. apply (F y); [apply in_or_app; right; left; reflexivity|exact I'].
Qed.
Lemma split_any_iff s chars ts : genStrSplitByAnyChar s chars true = Ok ts <-> tokens chars s ts.
Proof.
  destruct (split_tokens s chars) as (us & E & K). split.
  - intros H. rewrite H in E. injection E as ->. exact K.
  - intros H. rewrite E. f_equal. eapply tokens_det; eauto.
Qed.
(** paths *)
Lemma path_under prefix line path : under prefix line path <-> path = genPathAddElem prefix line.
Proof.
  unfold genPathAddElem, under. destruct (rev prefix) as [|c r] eqn:E.
  - assert (prefix = []) as -> by (rewrite <- (rev_involutive prefix), E; reflexivity). split.
    + intros [[_ H]|[[(d & H) _]|[H _]]]; [exact H|destruct d; discriminate|congruence].
    + intros ->. now left.
  - assert (prefix = rev r ++ [c]) as -> by (rewrite <- (rev_involutive prefix), E; reflexivity). destruct (ch_eqb c "/") eqn:B.
    + apply ch_eqb_eq in B. subst c. split.
      * intros [[H _]|[[_ H]|(_ & H & _)]]; [destruct (rev r); discriminate|exact H|exfalso; exact (H (rev r) eq_refl)].
      * intros ->. right. left. split; [now exists (rev r)|reflexivity].
    + assert (N : c <> "/"%char) by (intros ->; discriminate B). split.
      * intros [[H _]|[[(d & H) _]|(_ & _ & H)]]; [destruct (rev r); discriminate| |exact H]. apply app_inj_tail in H as [_ H]. contradiction.
      * intros ->. right. right. split; [destruct (rev r); discriminate|]. split; [|reflexivity]. intros d H. apply app_inj_tail in H as [_ H]. contradiction.
Qed.
(** names of namespaces *)
Definition sub_char (c d x : ascii) : ascii := if ch_eqb x c then d else x.
Lemma map_free c d t : ~ In c t -> map (sub_char c d) t = t.
Proof.
  induction t as [|x t IH]; intros H; [reflexivity|]. cbn [map]. unfold sub_char at 1. destruct (ch_eqb x c) eqn:E; [apply ch_eqb_eq in E; subst; exfalso; apply H; now left|].
  f_equal. apply IH. intros K. apply H. now right.
Qed.
Lemma find_sub_split c s : find_sub [c] s = split_at c s.
Proof.
  induction s as [|x s IH]; [reflexivity|]. cbn [find_sub split_at strip]. rewrite IH. destruct (ch_eqb c x) eqn:E.
  - apply ch_eqb_eq in E. subst. replace (ch_eqb x x) with true by (symmetry; now apply ch_eqb_eq). reflexivity.
  - destruct (ch_eqb x c) eqn:E'; [apply ch_eqb_eq in E'; subst; rewrite (proj2 (ch_eqb_eq c c) eq_refl) in E; discriminate|]. destruct (split_at c s) as [[a b]|]; reflexivity.
Qed.
Lemma replace_one_loop c d : forall n s, length s < n -> replace_loop n [c] [d] s = Ok (map (sub_char c d) s).
Proof.
  induction n as [|n IH]; intros s Hn; [lia|]. cbn [replace_loop]. destruct s as [|x s]; [reflexivity|]. rewrite find_sub_split.
  destruct (split_at c (x :: s)) as [[b a]|] eqn:E.
  - apply CommonFacts.split_at_spec in E as [E N]. rewrite E. rewrite IH; [|rewrite E in Hn; rewrite app_length in Hn; cbn in Hn; lia].
    cbn [bind]. rewrite map_app. cbn [map]. rewrite (map_free c d b N). unfold sub_char at 2. rewrite (proj2 (ch_eqb_eq c c) eq_refl). reflexivity.
  - apply split_at_None in E. now rewrite map_free.
Qed.
Lemma replace_one c d s : genStrReplace s [c] [d] = Ok (map (sub_char c d) s).
Proof. apply replace_one_loop. lia. Qed.
Lemma str_to_name s : genStrToName s = Ok (map (fun x => sub_char " " "_" (sub_char "-" "_" (sub_char "." "_" x))) s).
Proof.
  unfold genStrToName. change (L ".") with (["."%char] : str). change (L "_") with (["_"%char] : str). change (L "-") with (["-"%char] : str). change (L " ") with ([" "%char] : str).
  rewrite replace_one. cbn [bind]. rewrite replace_one. cbn [bind]. rewrite replace_one, !map_map. reflexivity.
Qed.
Lemma sub_case c d x : (x = c /\ sub_char c d x = d) \/ (x <> c /\ sub_char c d x = x).
Proof. unfold sub_char. destruct (ch_eqb x c) eqn:E; [apply ch_eqb_eq in E; auto|right]. split; [intros ->; rewrite (proj2 (ch_eqb_eq c c) eq_refl) in E; discriminate|reflexivity]. Qed.
Lemma ns_char_fun x : ns_char x (sub_char " " "_" (sub_char "-" "_" (sub_char "." "_" x))).
Proof.
  unfold ns_char. destruct (sub_case "." "_" x) as [[-> ->]|[N1 ->]]; [left; split; [cbn; auto|reflexivity]|].
  destruct (sub_case "-" "_" x) as [[-> ->]|[N2 ->]]; [left; split; [cbn; auto|reflexivity]|].
  destruct (sub_case " " "_" x) as [[-> ->]|[N3 ->]]; [left; split; [cbn; auto|reflexivity]|].
  right. split; [intros [K|[K|[K|[]]]]; congruence|reflexivity].
Qed.
Lemma ns_char_det x d d' : ns_char x d -> ns_char x d' -> d = d'.
Proof. intros [[A ->]|[A ->]] [[B ->]|[B ->]]; congruence || contradiction. Qed.
Lemma str_to_name_iff s r : genStrToName s = Ok r <-> ns_text s r.
Proof.
  rewrite str_to_name. unfold ns_text. split.
  - intros H. injection H as <-. induction s as [|x s IH]; cbn [map]; constructor; [apply ns_char_fun|exact IH].
  - intros H. f_equal. induction H as [|x d s r N H IH]; [reflexivity|]. cbn [map]. rewrite IH. f_equal. eapply ns_char_det; [apply ns_char_fun|exact N].
Qed.
(** renaming *)
Lemma override_pair_iff e a b : override_pair e = (a, b) <-> renames e a b.
Proof.
  unfold override_pair, renames. destruct (split_at ":" e) as [[x y]|] eqn:E.
  - apply CommonFacts.split_at_spec in E as [-> N]. destruct y as [|c y]; cbn [is_nil].
    + split.
      * intros H. injection H as <- <-. right. split; [reflexivity|]. split; [reflexivity|]. right. exists x. auto.
      * intros [(N' & Nb & E)|(-> & -> & _)]; [|reflexivity]. exfalso. cbn in E.
        destruct (free_prefix [":"%char] a x ":" b [":"%char]) as (a1 & -> & E1); [intros d K [<-|[]]; contradiction|intros d K [<-|[]]; contradiction|now left|now symmetry|].
        destruct a1 as [|z a1]; cbn in E1; [injection E1 as E1; congruence|injection E1 as _ E1; destruct a1; discriminate].
    + split.
      * intros H. injection H as <- <-. left. split; [exact N|]. split; [discriminate|reflexivity].
      * intros [(N' & Nb & E)|(-> & -> & [K|(z & K & E)])].
        -- cbn in E. destruct (free_prefix [":"%char] a x ":" b (":"%char :: c :: y)) as (a1 & -> & E1); [intros d K [<-|[]]; contradiction|intros d K [<-|[]]; contradiction|now left|now symmetry|].
           destruct a1 as [|z a1]; cbn in E1; [injection E1 as ->; now rewrite app_nil_r|]. injection E1 as <- _. exfalso. apply N'. apply in_or_app. right. now left.
        -- exfalso. apply K. apply in_or_app. right. now left.
        -- exfalso. cbn in E. destruct (free_prefix [":"%char] x z ":" (c :: y) [":"%char]) as (a1 & -> & E1); [intros d Q [<-|[]]; contradiction|intros d Q [<-|[]]; contradiction|now left|exact E|].
           destruct a1 as [|w a1]; cbn in E1; [discriminate|]. injection E1 as <- _. apply N. apply in_or_app. right. now left.
  - apply split_at_None in E. split.
    + intros H. injection H as <- <-. right. auto.
    + intros [(N' & Nb & K)|(-> & -> & _)]; [|reflexivity]. exfalso. apply E. rewrite K. apply in_or_app. right. now left.
Qed.
Lemma assoc_app {A} k (a b : list (str * A)) : assoc k (a ++ b) = match assoc k a with Some v => Some v | None => assoc k b end.
Proof. induction a as [|[x v] a IH]; [reflexivity|]. cbn [app assoc]. destruct (str_eqb x k); auto. Qed.
Lemma overrides_spec ts k : match assoc k (rev (map override_pair ts)) with Some v => renamed ts k v | None => not_renamed ts k end.
Proof.
  induction ts as [|e ts IH]; cbn [map rev].
  - cbn. intros e n [].
  - rewrite assoc_app. destruct (assoc k (rev (map override_pair ts))) as [v|].
    + destruct IH as (a & e' & b & -> & R & N). exists (e :: a), e', b. auto.
    + destruct (override_pair e) as [x y] eqn:E. cbn [assoc]. destruct (str_eqb x k) eqn:B.
      * apply str_eqb_eq in B. subst x. apply override_pair_iff in E. exists [], e, ts. split; [reflexivity|]. split; [exact E|]. intros e' n' I. exact (IH e' n' I).
      * intros e' n [<-|I] R; [|exact (IH e' n I R)]. apply override_pair_iff in R. rewrite R in E. injection E as -> ->. rewrite (proj2 (str_eqb_eq x x) eq_refl) in B. discriminate.
Qed.
(** numbers *)
Lemma stoul10_plain t n : plain_number t n -> (n < 4294967296)%Z -> genStrToUnsigned t = n.
Proof.
  intros N B. unfold genStrToUnsigned, stoul10. assert (N' := N). apply numeral_spec in N' as (NE & F & E); [|lia].
  assert (H : digits 10 None t = Some n). { apply digits_numeral; [lia|]. exists t, []. split; [now rewrite app_nil_r|]. split; [exact N|]. intros (c & v & r & Q & _). discriminate. }
  assert (P : (0 <= n)%Z). { clear -N. induction N as [c v [D _]|ds c n v N IH [D _]]; lia. }
  assert (S : sign (skip_space t) = (false, t)).
  { destruct t as [|c r]; [congruence|]. inversion F as [|? ? Fc Fr]; subst. clear -Fc. destruct c as [b0 b1 b2 b3 b4 b5 b6 b7].
    destruct b0, b1, b2, b3, b4, b5, b6, b7; try reflexivity; cbv in Fc; discriminate. }
  rewrite S, H. replace (n <=? uint_max)%Z with true by (unfold uint_max; lia). unfold to_u32, two32. rewrite Z.mod_small; lia.
Qed.
