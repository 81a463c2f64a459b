(** Properties of the command line of the generators. *)
From Coq Require Import ZifyBool ZifyNat.
From Verif.Model Require Import Base Common Units GenUtil GenComms ProgOpts.
From Verif.Spec Require Import Texts CmdSpec.
From Verif.Proofs Require Import BaseFacts CommonFacts CmdFacts.
Local Open Scope string_scope. Local Open Scope Z_scope. Local Open Scope list_scope.

Definition ex_options : list opt_info := Eval vm_compute in match comms_options with Ok l => l | _ => [] end.
Lemma comms_options_eq : comms_options = Ok ex_options.
Proof. vm_compute. reflexivity. Qed.
Definition ex_names : list (nat * txt) := Eval vm_compute in
  flat_map (fun p : nat * opt_info => let (i, o) := p in
     (if is_nil (o_short o) then [] else [(i, T "-" ++ o_short o)]) ++ (if is_nil (o_long o) then [] else [(i, T "--" ++ o_long o)]))
   (combine (seq 0 (length ex_options)) ex_options).
Lemma ex_names_all t i : names_option ex_options t i -> In (i, t) ex_names.
Proof.
  intros (o & N & Q). do 19 (destruct i as [|i]; [cbn in N; injection N as <-; cbn in Q; destruct Q as [[Q ->]|[Q ->]]; try congruence; cbn; repeat (first [left; reflexivity|right])|]).
  destruct i; discriminate N.
Qed.
Lemma ex_unique : forallb (fun p : nat * txt => forallb (fun q : nat * txt => negb (str_eqb (snd p) (snd q)) || Nat.eqb (fst p) (fst q)) ex_names) ex_names = true.
Proof. vm_compute. reflexivity. Qed.
(** The options of commsdsl2comms have different letters and names. *)
Theorem C57_option_names : exists opts, comms_options = Ok opts /\ clear_names opts /\ (forall o, In o opts -> o_used o = false) /\
  option_called opts (T "output-dir") 5 /\ names_option opts (T "-o") 5 /\ names_option opts (T "--output-dir") 5 /\ length opts = 19%nat.
Proof.
  exists ex_options. split; [exact comms_options_eq|]. split; [split|].
  - intros o I. cbn in I. repeat (destruct I as [<-|I]; [first [left; reflexivity|right; eexists; split; [reflexivity|discriminate]]|]). destruct I.
  - intros t i j A B. apply ex_names_all in A, B. pose proof ex_unique as U. rewrite forallb_forall in U. specialize (U _ A). rewrite forallb_forall in U. specialize (U _ B).
    cbn [fst snd] in U. rewrite (proj2 (str_eqb_eq t t) eq_refl) in U. cbn [negb orb] in U. now apply Nat.eqb_eq in U.
  - split; [intros o I; cbn in I; repeat (destruct I as [<-|I]; [reflexivity|]); destruct I|].
    split; [eexists; split; reflexivity|]. split; [eexists; split; [reflexivity|left; split; [discriminate|reflexivity]]|].
    split; [eexists; split; [reflexivity|right; split; [discriminate|reflexivity]]|reflexivity].
Qed.
Print Assumptions C57_option_names.
Lemma comms_facts opts : comms_options = Ok opts -> clear_names opts /\ (forall o, In o opts -> o_used o = false) /\ opts = ex_options.
Proof.
  intros H. destruct C57_option_names as (o' & E & C & U & _). rewrite H in E. injection E as <-. rewrite comms_options_eq in H. injection H as <-. auto.
Qed.

Lemma parsed opts argv : clear_names opts -> Forall (fun t => t <> []) argv -> exists es, reads opts argv es /\ (forall es', reads opts argv es' -> es' = es) /\
  p_args (genParse opts argv) = input_args es /\ p_unknown (genParse opts argv) = unknown_args es /\
  (forall i o, nth_error opts i = Some o -> exists o', nth_error (p_opts (genParse opts argv)) i = Some o' /\ same_decl o o' /\
     (o_used o' = true <-> o_used o = true \/ was_used i es) /\ value_of i es (o_value o) (o_value o')) /\ same_table opts (p_opts (genParse opts argv)).
Proof.
  intros C F. destruct (parse_reads (length argv) opts argv (mkPS opts [] [] None) (le_n _) C F eq_refl eq_refl) as (es & R & E).
  exists es. split; [exact R|]. split; [exact (reads_det _ _ _ C R)|]. unfold genParse. rewrite E. split; [apply run_args|]. split; [apply run_unknown|]. split; [intros i o N; exact (run_opts es (mkPS opts [] [] None) i o N)|].
  clear R E. revert opts C. assert (H : forall st, same_table (p_opts st) (p_opts (fold_left apply_event es st))).
  { induction es as [|e es IH]; intros st; [apply same_refl|]. cbn [fold_left]. eapply same_trans; [apply same_apply|apply IH]. }
  intros opts C. exact (H (mkPS opts [] [] None)).
Qed.
Lemma find_in (name : opt_info -> str) opts i o s : nth_error opts i = Some o -> name o = s -> s <> [] ->
  (forall j o', nth_error opts j = Some o' -> name o' = s -> j = i) -> find_opt name s 0 opts = Some i.
Proof.
  intros N E NE U. destruct (find_opt name s 0 opts) as [j|] eqn:Q.
  - apply find_opt_spec in Q as (k & o' & -> & N' & _ & E'). rewrite (U k o' N' E'). reflexivity.
  - exfalso. apply (proj1 (find_opt_None _ _ _ _) Q i o N); congruence.
Qed.
Lemma long_unique opts i o : clear_names opts -> nth_error opts i = Some o -> o_long o <> [] -> find_opt o_long (o_long o) 0 opts = Some i.
Proof.
  intros [_ C] N NE. apply (find_in o_long opts i o); auto. intros j o' N' E. symmetry. apply (C (T "--" ++ o_long o)).
  - exists o. auto.
  - exists o'. split; [exact N'|]. right. rewrite E. auto.
Qed.
Lemma short_unique opts i o : clear_names opts -> nth_error opts i = Some o -> o_short o <> [] -> find_opt o_short (o_short o) 0 opts = Some i.
Proof.
  intros [_ C] N NE. apply (find_in o_short opts i o); auto. intros j o' N' E. symmetry. apply (C (T "-" ++ o_short o)).
  - exists o. auto.
  - exists o'. split; [exact N'|]. left. rewrite E. auto.
Qed.
Lemma value_det i es d v v' : value_of i es d v -> value_of i es d v' -> v' = v.
Proof.
  intros [(a & b & E & N)|[N ->]] [(a' & b' & E' & N')|[N' ->]]; auto.
  - rewrite E in E'. clear E es. revert a' E'. induction a as [|x a IH]; intros [|y a'] E'; cbn in E'; injection E' as E1 E2.
    + congruence.
    + subst b. exfalso. apply (N v'). apply in_or_app. right. now left.
    + subst b'. exfalso. apply (N' v). apply in_or_app. right. now left.
    + exact (IH _ E2).
  - exfalso. apply (N' v). rewrite E. apply in_or_app. right. now left.
  - exfalso. apply (N v'). rewrite E'. apply in_or_app. right. now left.
Qed.

(** Every command line without empty arguments can be read in exactly one way, and this is how it is read: the input files are the arguments that belong
    to no option, the strange options are those reported, an option counts as used exactly if it is named, and the value is the last one given. *)
Theorem C57_reading : forall opts argv, comms_options = Ok opts -> Forall (fun t => t <> []) argv ->
  exists es, reads opts argv es /\ (forall es', reads opts argv es' -> es' = es) /\
    p_args (genParse opts argv) = input_args es /\ p_unknown (genParse opts argv) = unknown_args es /\
    forall i o name, nth_error opts i = Some o -> (o_long o = name \/ o_short o = name) -> name <> [] ->
      (genIsOptUsed (p_opts (genParse opts argv)) name = true <-> was_used i es) /\
      (o_hasParam o = true -> forall v, genValue (p_opts (genParse opts argv)) name = v <-> value_of i es (o_value o) v).
Proof.
  intros opts argv HO F. destruct (comms_facts _ HO) as (C & U & EX). destruct (parsed opts argv C F) as (es & R & D & A1 & A2 & A3 & ST).
  exists es. split; [exact R|]. split; [exact D|]. split; [exact A1|]. split; [exact A2|]. intros i o name N Q NE.
  pose proof (same_clear _ _ ST C) as C'. destruct (A3 _ _ N) as (o' & N' & (S1 & S2 & S3) & Us & Vs).
  assert (Lg : forall o, In o opts -> o_long o <> [] /\ length (o_long o) <> 1%nat /\ (o_short o <> [] -> length (o_short o) = 1%nat)).
  { clear -EX. subst opts. intros o I. cbn in I. repeat (destruct I as [<-|I]; [cbn; split; [discriminate|split; [lia|intros; auto; contradiction]]|]). destruct I. }
  destruct (Lg o (nth_error_In _ _ N)) as (L1 & L2 & L3). pose proof (U o (nth_error_In _ _ N)) as U0.
  assert (Us' : o_used o' = true <-> was_used i es) by (rewrite Us, U0; intuition discriminate). clear Us.
  destruct Q as [Q|Q]; subst name.
  - assert (Fd : find_opt o_long (o_long o) 0 (p_opts (genParse opts argv)) = Some i) by (rewrite S2; apply long_unique; auto; congruence).
    unfold genIsOptUsed, genValue. replace (Nat.eqb (length (o_long o)) 1) with false by (symmetry; now apply Nat.eqb_neq). cbn [andb].
    unfold used_in, value_in. rewrite Fd, N'. split; [exact Us'|]. intros Hp v. rewrite <- S3, Hp. split; [intros <-; exact Vs|intros V; eapply value_det; eauto].
  - assert (Fd : find_opt o_short (o_short o) 0 (p_opts (genParse opts argv)) = Some i) by (rewrite S1; apply short_unique; auto; congruence).
    unfold genIsOptUsed, genValue. rewrite (L3 NE). cbn [Nat.eqb andb]. unfold used_in at 1. unfold value_in at 1. rewrite Fd, N'. split.
    + assert (NL : used_in o_long (o_short o) (p_opts (genParse opts argv)) = false); [|rewrite NL; destruct (o_used o'); exact Us'].
      unfold used_in. destruct (find_opt o_long (o_short o) 0 (p_opts (genParse opts argv))) as [k|] eqn:Fk; [|reflexivity].
      exfalso. apply find_opt_spec in Fk as (j & q & _ & Nq & _ & Eq). destruct (same_nth _ _ _ _ (same_sym _ _ ST) Nq) as (q' & Nq' & _ & Eq' & _).
      destruct (Lg q' (nth_error_In _ _ Nq')) as (_ & K & _). rewrite <- Eq', Eq in K. exact (K (L3 NE)).
    + intros Hp v. rewrite <- S3, Hp. split; [intros <-; exact Vs|intros V; eapply value_det; eauto].
Qed.
Print Assumptions C57_reading.
Definition ex_argv : list txt := map T ["-o"; "out"; "a.xml"; "--min-remote-version"; "3"; "-x"; "--version=2"; "b.xml"; "--output-dir"; "-q"].
Definition ex_events : list event := [Given 5 (T "out"); Arg (T "a.xml"); Given 11 (T "3"); Unknown (T "-x"); Unknown (T "--version=2"); Arg (T "b.xml"); Given 5 (T "-q")].
Ltac not_named := intros i H; apply ex_names_all in H; cbn in H; repeat (destruct H as [H|H]; [discriminate H|]); exact H.
Ltac named := eexists; split; [reflexivity|first [left; split; [discriminate|reflexivity]|right; split; [discriminate|reflexivity]]].
Ltac not_dashed := intros [r H]; discriminate H.
Lemma ex_reads : reads ex_options ex_argv ex_events.
Proof.
  unfold ex_argv, ex_events. cbn [map].
  apply reads_value; [named|eexists; split; reflexivity|]. apply reads_arg; [not_dashed|]. apply reads_value; [named|eexists; split; reflexivity|].
  apply reads_unknown; [eexists; reflexivity|not_named|]. apply reads_unknown; [eexists; reflexivity|not_named|]. apply reads_arg; [not_dashed|].
  apply reads_value; [named|eexists; split; reflexivity|constructor].
Qed.
Example C57_reading_ex : comms_options = Ok ex_options /\ Forall (fun t => t <> []) ex_argv /\ reads ex_options ex_argv ex_events /\
  p_args (genParse ex_options ex_argv) = map T ["a.xml"; "b.xml"] /\ p_unknown (genParse ex_options ex_argv) = map T ["-x"; "--version=2"] /\
  genValue (p_opts (genParse ex_options ex_argv)) (T "output-dir") = T "-q" /\ genValue (p_opts (genParse ex_options ex_argv)) (T "customization") = T "limited" /\
  genIsOptUsed (p_opts (genParse ex_options ex_argv)) (T "q") = false.
Proof.
  split; [exact comms_options_eq|]. split; [repeat constructor; discriminate|]. split; [exact ex_reads|]. repeat split; vm_compute; reflexivity.
Qed.

(** An empty argument is skipped wherever it stands: the value of an option may not be empty, and the next argument takes its place (here the input file). *)
Theorem C57_empty_value_refuted : exists opts argv, comms_options = Ok opts /\ argv = [T "--input-files-prefix"; []; T "schema.xml"] /\
  reads opts argv [Given 7 []; Arg (T "schema.xml")] /\
  genValue (p_opts (genParse opts argv)) (T "input-files-prefix") = T "schema.xml" /\ p_args (genParse opts argv) = [].
Proof.
  exists ex_options, [T "--input-files-prefix"; []; T "schema.xml"]. split; [exact comms_options_eq|]. split; [reflexivity|]. split.
  - apply reads_value; [named|eexists; split; reflexivity|]. apply reads_arg; [not_dashed|constructor].
  - split; vm_compute; reflexivity.
Qed.
Print Assumptions C57_empty_value_refuted.
(** An option at the end with no value counts as given, with its default value, and nothing is reported. *)
Theorem C57_missing_value_refuted : exists opts argv, comms_options = Ok opts /\ argv = [T "a.xml"; T "-o"] /\ reads opts argv [Arg (T "a.xml"); Missing 5] /\
  genIsOptUsed (p_opts (genParse opts argv)) (T "output-dir") = true /\ genValue (p_opts (genParse opts argv)) (T "output-dir") = [] /\ p_unknown (genParse opts argv) = [].
Proof.
  exists ex_options, [T "a.xml"; T "-o"]. split; [exact comms_options_eq|]. split; [reflexivity|]. split.
  - apply reads_arg; [not_dashed|]. apply reads_missing; [named|eexists; split; reflexivity].
  - repeat split; vm_compute; reflexivity.
Qed.
Print Assumptions C57_missing_value_refuted.

(** Texts are cut at the given characters, empty parts left out. *)
Theorem C57_split : forall s seps ts, genStrSplitByAnyChar s seps true = Ok ts <-> tokens seps s ts.
Proof. exact split_any_iff. Qed.
Print Assumptions C57_split.

(** The schema files read, in order: those of the list file, below the directory given, then those on the command line. *)
Theorem C57_input_files : forall opts argv es iL iP listfile prefix read files, comms_options = Ok opts -> Forall (fun t => t <> []) argv -> reads opts argv es ->
  option_called opts (T "input-files-list") iL -> option_called opts (T "input-files-prefix") iP -> value_of iL es [] listfile -> value_of iP es [] prefix ->
  (genGetInputFiles read (genParse opts argv) = Ok files <->
   exists listed, files = listed ++ input_args es /\
     ((listfile = [] /\ listed = []) \/ (listfile <> [] /\ read listfile = None /\ listed = []) \/
      (listfile <> [] /\ exists contents lines, read listfile = Some contents /\ tokens ["013"; "010"]%char contents lines /\ Forall2 (under prefix) lines listed))).
Proof.
  intros opts argv es iL iP listfile prefix read files HO F R CL CP VL VP. destruct (C57_reading opts argv HO F) as (es' & R' & D & A1 & _ & A3).
  rewrite <- (D _ R) in *. clear D R' es'. destruct CL as (oL & NL & EL). destruct CP as (oP & NP & EP).
  destruct (comms_facts _ HO) as (_ & _ & EX).
  assert (HL : o_hasParam oL = true /\ o_value oL = []) by (clear -EX NL EL; subst opts; do 19 (destruct iL as [|iL]; [cbn in NL; injection NL as <-; first [discriminate EL|auto]|]); destruct iL; discriminate NL).
  assert (HP : o_hasParam oP = true /\ o_value oP = []) by (clear -EX NP EP; subst opts; do 19 (destruct iP as [|iP]; [cbn in NP; injection NP as <-; first [discriminate EP|auto]|]); destruct iP; discriminate NP).
  destruct HL as [HL1 HL2], HP as [HP1 HP2]. rewrite <- HL2 in VL. rewrite <- HP2 in VP.
  apply (proj2 (A3 iL oL (T "input-files-list") NL (or_introl EL) ltac:(discriminate)) HL1) in VL.
  apply (proj2 (A3 iP oP (T "input-files-prefix") NP (or_introl EP) ltac:(discriminate)) HP1) in VP.
  unfold genGetInputFiles. change (L "input-files-list") with (T "input-files-list"). change (L "input-files-prefix") with (T "input-files-prefix").
  rewrite VL, VP, A1. clear. destruct listfile as [|c lf].
  - cbn [is_nil bind]. split.
    + intros H. injection H as <-. exists []. split; [reflexivity|]. now left.
    + intros (listed & -> & [[_ ->]|[(K & _)|(K & _)]]); [reflexivity|congruence|congruence].
  - cbn [is_nil]. destruct (read (c :: lf)) as [contents|] eqn:E; cbn [bind].
    + change [chr 13; nl] with ["013"; "010"]%char.
      assert (M : forall l, (if is_nil prefix then l else map (genPathAddElem prefix) l) = map (genPathAddElem prefix) l).
      { intros l. destruct prefix; [|reflexivity]. cbn [is_nil]. induction l as [|x l IH]; [reflexivity|]. cbn [map]. now rewrite <- IH. }
      assert (M2 : forall l l', Forall2 (under prefix) l l' <-> l' = map (genPathAddElem prefix) l).
      { intros l l'. split; [induction 1 as [|x y l l' U _ IH]; [reflexivity|]; cbn [map]; rewrite IH; f_equal; now apply path_under|].
        intros ->. induction l as [|x l IH]; cbn [map]; constructor; auto. now apply path_under. }
      split.
      * intros H. destruct (split_tokens contents ["013"; "010"]%char) as (ts & Q & K). rewrite Q in H. cbn [bind] in H. rewrite M in H. injection H as <-. eexists. split; [reflexivity|].
        right. right. split; [discriminate|]. exists contents, ts. split; [reflexivity|]. split; [exact K|]. now apply M2.
      * intros (listed & -> & [[K _]|[(_ & K & _)|(_ & contents' & lines & K & Tk & U)]]); [discriminate|discriminate|]. injection K as <-. apply split_any_iff in Tk. rewrite Tk. cbn [bind].
        rewrite M. apply M2 in U. now rewrite U.
    + split.
      * intros H. injection H as <-. exists []. split; [reflexivity|]. right. left. split; [discriminate|auto].
      * intros (listed & -> & [[K _]|[(_ & _ & ->)|(_ & contents' & lines & K & _)]]); [discriminate|reflexivity|discriminate].
Qed.
Print Assumptions C57_input_files.
Definition ex_read (f : txt) : option txt := if str_eqb f (T "l.txt") then Some (T "x.xml" ++ ["013"; "010"; "010"]%char ++ T "sub/y.xml") else None.
Example C57_input_files_ex : genGetInputFiles ex_read (genParse ex_options (map T ["z.xml"; "-i"; "l.txt"; "-p"; "dir"])) = Ok (map T ["dir/x.xml"; "dir/sub/y.xml"; "z.xml"]) /\
  option_called ex_options (T "input-files-list") 6 /\ option_called ex_options (T "input-files-prefix") 7 /\
  reads ex_options (map T ["z.xml"; "-i"; "l.txt"; "-p"; "dir"]) [Arg (T "z.xml"); Given 6 (T "l.txt"); Given 7 (T "dir")].
Proof.
  split; [vm_compute; reflexivity|]. split; [eexists; split; reflexivity|]. split; [eexists; split; reflexivity|]. cbn [map].
  apply reads_arg; [not_dashed|]. apply reads_value; [named|eexists; split; reflexivity|]. apply reads_value; [named|eexists; split; reflexivity|constructor].
Qed.

(** The versions: a number given for the oldest remote version, and for the version to generate, is the one used. *)
Theorem C57_versions : forall opts argv es iM iF parsed, comms_options = Ok opts -> Forall (fun t => t <> []) argv -> reads opts argv es ->
  option_called opts (T "min-remote-version") iM -> option_called opts (T "force-schema-version") iF ->
  let g := versions_of (p_opts (genParse opts argv)) parsed in
  (~ was_used iM es -> gv_min_remote g = 0) /\
  (forall t n, value_of iM es [] t -> plain_number t n -> n < 2 ^ 32 -> was_used iM es -> gv_min_remote g = n) /\
  (~ was_used iF es -> genSchemaVersion g = parsed) /\
  (forall t n, value_of iF es [] t -> plain_number t n -> n < 2 ^ 31 -> was_used iF es -> genSchemaVersion g = n).
Proof.
  intros opts argv es iM iF parsed HO F R CM CF. destruct (C57_reading opts argv HO F) as (es' & R' & D & _ & _ & A3).
  rewrite <- (D _ R) in *. clear D R' es'. destruct CM as (oM & NM & EM). destruct CF as (oF & NF & EF).
  destruct (comms_facts _ HO) as (_ & _ & EX).
  assert (HM : o_hasParam oM = true /\ o_value oM = []) by (clear -EX NM EM; subst opts; do 19 (destruct iM as [|iM]; [cbn in NM; injection NM as <-; first [discriminate EM|auto]|]); destruct iM; discriminate NM).
  assert (HF : o_hasParam oF = true /\ o_value oF = []) by (clear -EX NF EF; subst opts; do 19 (destruct iF as [|iF]; [cbn in NF; injection NF as <-; first [discriminate EF|auto]|]); destruct iF; discriminate NF).
  destruct HM as [HM1 HM2], HF as [HF1 HF2].
  destruct (A3 iM oM (T "min-remote-version") NM (or_introl EM) ltac:(discriminate)) as [UM VM].
  destruct (A3 iF oF (T "force-schema-version") NF (or_introl EF) ltac:(discriminate)) as [UF VF]. specialize (VM HM1). specialize (VF HF1). rewrite HM2 in VM. rewrite HF2 in VF.
  unfold versions_of. change (L "min-remote-version") with (T "min-remote-version"). change (L "force-schema-version") with (T "force-schema-version"). cbn zeta. cbn [gv_min_remote].
  assert (B : forall b (P : Prop), (b = true <-> P) -> ~ P -> b = false) by (intros [] P H K; [exfalso; apply K; now apply H|reflexivity]).
  split; [|split; [|split]].
  - intros N. now rewrite (B _ _ UM N).
  - intros t n V P Hn U. apply UM in U. rewrite U. apply VM in V. rewrite V. apply stoul10_plain; [exact P|lia].
  - intros N. rewrite (B _ _ UF N). reflexivity.
  - intros t n V P Hn U. apply UF in U. rewrite U. apply VF in V. rewrite V. unfold genSchemaVersion, forced_version. cbn [gv_forced]. rewrite (stoul10_plain t n P) by lia.
    assert (0 <= n) by (clear -P; induction P as [c v [D _]|ds c n v N IH [D _]]; lia). unfold to_int. replace (2147483648 <=? n) with false by lia. replace (0 <=? n) with true by lia. reflexivity.
Qed.
Print Assumptions C57_versions.
Definition ex_forced (t : string) : txt * Z := (T t, genSchemaVersion (versions_of (p_opts (genParse ex_options [T "--force-schema-version"; T t])) 7)).
Example C57_versions_ex : snd (ex_forced "3") = 3 /\ gv_min_remote (versions_of (p_opts (genParse ex_options (map T ["-m"; "2"; "a.xml"]))) 7) = 2 /\
  plain_number (T "3") 3 /\ option_called ex_options (T "force-schema-version") 12 /\ option_called ex_options (T "min-remote-version") 11 /\
  reads ex_options (map T ["-m"; "2"; "a.xml"]) [Given 11 (T "2"); Arg (T "a.xml")].
Proof.
  split; [vm_compute; reflexivity|]. split; [vm_compute; reflexivity|]. split; [constructor; split; [lia|left; reflexivity]|].
  split; [eexists; split; reflexivity|]. split; [eexists; split; reflexivity|]. cbn [map]. apply reads_value; [named|eexists; split; reflexivity|]. apply reads_arg; [not_dashed|constructor].
Qed.
(** A forced version that is not a number means version 0, one from 2^31 on, or a negative one, is ignored. *)
Theorem C57_forced_version_refuted : ex_forced "latest" = (T "latest", 0) /\ ex_forced "4294967295" = (T "4294967295", 7) /\ ex_forced "-1" = (T "-1", 7) /\ ex_forced "0x2" = (T "0x2", 0).
Proof. repeat split; vm_compute; reflexivity. Qed.
Print Assumptions C57_forced_version_refuted.

(** The version of the generated code: at least three parts, the missing ones 0. *)
Theorem C57_code_version : forall version ts l, version <> [] -> tokens (T ".") version ts ->
  (genGetCodeVersionTokens version = Ok l <-> exists zeros, l = ts ++ zeros /\ length zeros = (3 - length ts)%nat /\ Forall (fun z => z = T "0") zeros).
Proof.
  intros version ts l NE K. unfold genGetCodeVersionTokens. destruct version as [|c v]; [congruence|]. cbn [is_nil]. change (L ".") with (T "."). apply split_any_iff in K. rewrite K. cbn [bind].
  assert (P0 : forall n, exists zeros, pad_tokens n [] = zeros /\ length zeros = n /\ Forall (fun z => z = T "0") zeros).
  { induction n as [|n (z & E1 & E2 & E3)]; [exists []; auto|]. cbn [pad_tokens]. exists (T "0" :: z). rewrite E1. cbn [length]. auto. }
  assert (P : forall n l, exists zeros, pad_tokens n l = l ++ zeros /\ length zeros = (n - length l)%nat /\ Forall (fun z => z = T "0") zeros).
  { induction n as [|n IH]; intros k; [exists []; cbn; rewrite app_nil_r; auto|]. destruct k as [|t k]; [destruct (P0 (S n)) as (z & E); exists z; cbn; exact E|].
    cbn [pad_tokens length]. destruct (IH k) as (z & -> & E2 & E3). exists z. auto. }
  split.
  - intros H. assert (E : l = pad_tokens 3 ts) by congruence. rewrite E. apply P.
  - intros (z & -> & L1 & F1). destruct (P 3%nat ts) as (z' & -> & L2 & F2). f_equal. f_equal.
    assert (z' = z); [|assumption]. clear -L1 L2 F1 F2. assert (LL : length z' = length z) by lia. clear L1 L2. revert z F1 LL. induction F2 as [|x z' -> F2 IH]; intros [|y z] F1 LL; try discriminate; auto.
    inversion F1; subst. f_equal. apply IH; auto.
Qed.
Print Assumptions C57_code_version.
Example C57_code_version_ex : genGetCodeVersionTokens (T "2.1") = Ok (map T ["2"; "1"; "0"]) /\ tokens (T ".") (T "2.1") (map T ["2"; "1"]).
Proof. split; [vm_compute; reflexivity|]. apply split_any_iff. vm_compute. reflexivity. Qed.

(** The namespace of every schema: the one asked for it by name, for the last schema (the protocol) the one asked for without a name; otherwise
    the name of the schema. *)
Theorem C57_namespaces : forall opts argv es iN value ts names ovr mains, comms_options = Ok opts -> Forall (fun t => t <> []) argv -> reads opts argv es ->
  option_called opts (T "namespace") iN -> value_of iN es [] value -> tokens (T ",") value ts ->
  overrides_of (p_opts (genParse opts argv)) = Ok ovr -> main_namespaces ovr names = Ok mains ->
  length mains = length names /\
  forall i name main, nth_error names i = Some name -> nth_error mains i = Some main ->
    exists ns, ns_text name ns /\
      if Nat.eqb (S i) (length names)
      then renamed ts [] main \/ (not_renamed ts [] /\ (renamed ts ns main \/ (not_renamed ts ns /\ main = ns)))
      else renamed ts ns main \/ (not_renamed ts ns /\ main = ns).
Proof.
  intros opts argv es iN value ts names ovr mains HO F R CN VN TK HOv HM. destruct (C57_reading opts argv HO F) as (es' & R' & D & _ & _ & A3).
  rewrite <- (D _ R) in *. clear D R' es'. destruct CN as (oN & NN & EN). destruct (comms_facts _ HO) as (_ & _ & EX).
  assert (HN : o_hasParam oN = true /\ o_value oN = []) by (clear -EX NN EN; subst opts; do 19 (destruct iN as [|iN]; [cbn in NN; injection NN as <-; first [discriminate EN|auto]|]); destruct iN; discriminate NN).
  destruct HN as [HN1 HN2]. destruct (A3 iN oN (T "namespace") NN (or_introl EN) ltac:(discriminate)) as [UN V]. specialize (V HN1). rewrite HN2 in V.
  assert (O : forall k, match assoc k ovr with Some v => renamed ts k v | None => not_renamed ts k end).
  { unfold overrides_of in HOv. change (L "namespace") with (T "namespace") in HOv. destruct (genIsOptUsed (p_opts (genParse opts argv)) (T "namespace")) eqn:U.
    - assert (V' := proj2 (V value) VN). rewrite V' in HOv. unfold genSetNamespaceOverride in HOv. change (L ",") with (T ",") in HOv. apply split_any_iff in TK. rewrite TK in HOv. cbn [bind] in HOv.
      injection HOv as <-. intros k. apply overrides_spec.
    - injection HOv as <-. intros k. cbn [assoc]. assert (ts = []) as ->; [|intros e n []]. 
      destruct VN as [(a & b & -> & _)|[_ ->]]; [|exact (eq_sym (tokens_det _ _ _ TK [] (tokens_end _)))].
      assert (W : was_used iN (a ++ Given iN value :: b)) by (right; right; exists value; apply in_or_app; right; now left). apply UN in W. congruence. }
  clear - HM O. revert mains HM. induction names as [|n names IH]; intros mains HM.
  - injection HM as <-. split; [reflexivity|]. intros [|i] name main H; discriminate.
  - cbn [main_namespaces] in HM. destruct (genStrToName n) as [orig| |] eqn:E; try discriminate. cbn [bind] in HM. apply str_to_name_iff in E.
    destruct (main_namespaces ovr names) as [r| |]; try discriminate. cbn [bind] in HM. injection HM as <-. destruct (IH r eq_refl) as [IH1 IH2].
    split; [cbn [length]; now rewrite IH1|]. intros [|i] name main H1 H2.
    + cbn in H1, H2. injection H1 as <-. injection H2 as <-. exists orig. split; [exact E|]. pose proof (O orig) as O1. pose proof (O []) as O2.
      destruct names as [|n2 names]; cbn [length Nat.eqb].
      * destruct (assoc [] ovr); [left; exact O2|right; split; [exact O2|]]. destruct (assoc orig ovr); auto.
      * destruct (assoc orig ovr); auto.
    + cbn [nth_error] in H1, H2. destruct (IH2 _ _ _ H1 H2) as (ns & N & Q). exists ns. split; [exact N|]. cbn [length]. replace (Nat.eqb (S (S i)) (S (length names))) with (Nat.eqb (S i) (length names)) by reflexivity. exact Q.
Qed.
Print Assumptions C57_namespaces.
Example C57_namespaces_ex : exists ovr, overrides_of (p_opts (genParse ex_options (map T ["-n"; "common:cmn,my_ns"; "a.xml"]))) = Ok ovr /\
  main_namespaces ovr (map T ["common"; "other v1.2"; "proto"]) = Ok (map T ["cmn"; "other_v1_2"; "my_ns"]) /\ option_called ex_options (T "namespace") 10.
Proof. eexists. split; [vm_compute; reflexivity|]. split; [vm_compute; reflexivity|eexists; split; reflexivity]. Qed.
