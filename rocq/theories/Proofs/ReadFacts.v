(** Proofs about Model/CommsRead.v. *)
From Coq Require Import Lia ZifyBool ZifyNat Arith.
From Verif.Model Require Import Base Common Units Field GenUtil GenComms CommsInt CommsCond CommsPrefix CommsRead.
From Verif.Spec Require Import Texts GenSpec TokenSpec CppSpec CondCode PrefixCode ReadCode.
From Verif.Proofs Require Import BaseFacts CommonFacts TemplateFacts CommsIntFacts CondCodeFacts TokenFacts FactoryFacts PrefixFacts.
Local Open Scope string_scope. Local Open Scope Z_scope. Local Open Scope list_scope.

Definition needs (m : member_code) : bool := negb (is_nil (mc_prepare m)).
Fixpoint prog_from (first : bool) (prev : option txt) (l : list member_code) : list rstmt * option txt :=
  match l with
  | [] => ([], prev)
  | m :: l' =>
      if negb (needs m) then prog_from false prev l'
      else if first then let (r, q) := prog_from false prev l' in (RPrepare (mc_name m) :: r, q)
      else let (r, q) := prog_from false (Some (mc_name m)) l' in
           (match prev with None => RUntil (mc_name m) | Some p => RFromUntil p (mc_name m) end :: RCheck :: RPrepare (mc_name m) :: r, q)
  end.
Definition last_read (q : option txt) : rstmt := match q with None => RAll | Some p => RFrom p end.
Definition program (l : list member_code) : list rstmt :=
  let (r, q) := prog_from true None l in match r with [] => [] | _ => r ++ [last_read q] end.

(** ** The text *)
Lemma flat_tokens msg l : tokens (print_rs msg l) = flat_map (fun s => tokens (print_r msg s)) l.
Proof. unfold print_rs. rewrite tokens_join. induction l as [|s l IH]; [reflexivity|]. cbn [map flat_map]. now rewrite IH. Qed.
Lemma check_tokens msg b : tokens (es_check ++ b) = tokens (print_r msg RCheck) ++ tokens b.
Proof.
  rewrite tokens_l by (vm_compute; reflexivity). apply (f_equal (fun x => x ++ tokens b)). vm_compute. reflexivity.
Qed.
Lemma stmt_nl t b : tokens ((t ++ [nl]) ++ b) = tokens t ++ tokens b.
Proof. rewrite <- app_assoc. cbn [app]. apply tokens_nl. Qed.
Lemma last_tokens msg q :
  tokens match q with
         | None => L "es = Base::" ++ CommsRead.read_func msg [] ++ L "(iter, len);" ++ [nl]
         | Some p => L "es = Base::template " ++ CommsRead.read_func msg (L "From") ++ L "<FieldIdx_" ++ p ++ L ">(iter, len);" ++ [nl]
         end = tokens (print_r msg (last_read q)).
Proof.
  assert (forall t u, t = u ++ [nl] -> tokens t = tokens u) as K.
  { intros t u ->. change [nl] with (nl :: []). rewrite tokens_nl. cbn [tokens]. apply app_nil_r. }
  destruct q as [p|]; apply K; unfold CommsRead.read_func, print_r, last_read; destruct msg; rewrite <- ?app_assoc; reflexivity.
Qed.
Lemma prepare_tokens msg m b : tokens ((L "readPrepare_" ++ m ++ L "();" ++ [nl]) ++ b) = tokens (print_r msg (RPrepare m)) ++ tokens b.
Proof. rewrite <- stmt_nl. apply (f_equal tokens). cbn [print_r]. rewrite <- !app_assoc. reflexivity. Qed.
Lemma call_tokens msg prev m b :
  tokens ((match prev with
            | None => L "es = Base::template " ++ CommsRead.read_func msg (L "UntilAndUpdateLen") ++ L "<FieldIdx_" ++ m
            | Some p => L "es = Base::template " ++ CommsRead.read_func msg (L "FromUntilAndUpdateLen") ++ L "<FieldIdx_" ++ p ++ L ", FieldIdx_" ++ m
            end ++ L ">(iter, len);" ++ [nl]) ++ b) =
  tokens (print_r msg (match prev with None => RUntil m | Some p => RFromUntil p m end)) ++ tokens b.
Proof.
  rewrite <- stmt_nl. apply (f_equal tokens). apply (f_equal (fun x => x ++ b)).
  unfold CommsRead.read_func. destruct prev, msg; cbn [print_r]; rewrite <- ?app_assoc; reflexivity.
Qed.
Lemma reads_tokens msg l : forall first prev,
  snd (reads_from msg first prev l) = snd (prog_from first prev l) /\
  flat_map tokens (fst (reads_from msg first prev l)) = flat_map (fun s => tokens (print_r msg s)) (fst (prog_from first prev l)) /\
  (fst (reads_from msg first prev l) = [] <-> fst (prog_from first prev l) = []).
Proof.
  induction l as [|m l IH]; intros first prev; [repeat split; reflexivity|].
  cbn [reads_from prog_from]. unfold needs. destruct (is_nil (mc_prepare m)) eqn:N; cbn [negb]; [apply IH|].
  destruct first.
  - specialize (IH false prev). destruct (reads_from msg false prev l) as [r q], (prog_from false prev l) as [r' q']. cbn [fst snd] in *.
    destruct IH as (E1 & E2 & E3). split; [exact E1|]. split; [|split; discriminate].
    match goal with |- flat_map _ (?x :: ?r) = flat_map ?f (?y :: ?r') => change (tokens x ++ flat_map tokens r = tokens (print_r msg y) ++ flat_map f r') end.
    rewrite E2. apply (f_equal (fun x => x ++ _)).
    pose proof (prepare_tokens msg (mc_name m) []) as K. rewrite !app_nil_r in K. exact K.
  - specialize (IH false (Some (mc_name m))). destruct (reads_from msg false (Some (mc_name m)) l) as [r q], (prog_from false (Some (mc_name m)) l) as [r' q'].
    cbn [fst snd] in *. destruct IH as (E1 & E2 & E3). split; [exact E1|]. split; [|split; discriminate].
    match goal with |- flat_map _ (?x :: ?r) = flat_map ?f (?y :: ?z :: ?w :: ?r') =>
      change (tokens x ++ flat_map tokens r = tokens (print_r msg y) ++ tokens (print_r msg z) ++ tokens (print_r msg w) ++ flat_map f r') end.
    rewrite E2, call_tokens, (check_tokens msg). rewrite (tokens_l [nl]) by reflexivity. change (tokens [nl]) with (@nil txt).
    pose proof (prepare_tokens msg (mc_name m) []) as K. rewrite !app_nil_r in K. rewrite K. rewrite <- !app_assoc. reflexivity.
Qed.
Lemma reads_of_tokens msg l : tokens (genStrListToString (reads_of msg l) [nl] []) = tokens (print_rs msg (program l)) /\
  (is_nil (reads_of msg l) = true <-> program l = []).
Proof.
  unfold reads_of, program. destruct (reads_tokens msg l true None) as (E1 & E2 & E3).
  destruct (reads_from msg true None l) as [r q], (prog_from true None l) as [r' q']. cbn [fst snd] in *. subst q'.
  destruct r as [|x r], r' as [|y r']; try (destruct E3 as [E3 E4]; (discriminate (E3 eq_refl) || discriminate (E4 eq_refl))).
  - split; [reflexivity|]. split; reflexivity.
  - cbn [is_nil]. split; [|split; intro H; [destruct r; discriminate H|destruct r'; discriminate H]].
    rewrite FactoryFacts.list_tokens, flat_tokens, !flat_map_app, E2. apply (f_equal (fun x => _ ++ x)).
    match goal with |- flat_map _ [?x] = flat_map ?f [?y] => change (tokens x ++ [] = tokens (print_r msg y) ++ []) end. now rewrite last_tokens.
Qed.

(** ** Execution *)
Lemma index_nth names : forall i m, NoDup names -> nth_error names i = Some m -> index_of m names = Some i.
Proof.
  induction names as [|n names IH]; intros i m Nd E; [destruct i; discriminate|]. inversion Nd as [|? ? Nn Nd']; subst.
  destruct i as [|i]; cbn [nth_error index_of] in *.
  - injection E as ->. now destruct (list_eq_dec ascii_dec m m).
  - destruct (list_eq_dec ascii_dec n m) as [->|_]; [exfalso; apply Nn, (nth_error_In _ _ E)|]. now rewrite (IH _ _ Nd' E).
Qed.
Lemma read_range_app {S} (rd : reader S) n1 n2 : forall i s len, read_range rd i (n1 + n2) s len =
  match read_range rd i n1 s len with (Success, s', len') => read_range rd (i + n1) n2 s' len' | r => r end.
Proof.
  induction n1 as [|n1 IH]; intros i s len; cbn [read_range Nat.add]; [now rewrite Nat.add_0_r|].
  destruct (rd_field rd i s len) as [[[|c] s'] len']; [|reflexivity]. rewrite IH. now replace (i + 1 + n1)%nat with (i + Datatypes.S n1)%nat by lia.
Qed.
Lemma read_none {S} (rd : reader S) bs : existsb (fun b => b) bs = false -> forall i s len,
  read_members rd bs i s len = let '(e, s', _) := read_range rd i (length bs) s len in (e, s').
Proof.
  induction bs as [|b bs IH]; intros H i s len; [reflexivity|]. cbn [existsb] in H. apply orb_false_iff in H as [-> H].
  cbn [read_members length read_range]. destruct (rd_field rd i s len) as [[[|c] s'] len']; [|reflexivity]. now apply IH.
Qed.
Section Running.
Context {S : Type} (rd : reader S) (all : list member_code).
Let names := map mc_name all.
Hypothesis Nd : NoDup names.
Lemma at_index pre m l : all = pre ++ m :: l -> index_of (mc_name m) names = Some (length pre).
Proof. intro E. apply index_nth; [exact Nd|]. unfold names. rewrite E, map_app. cbn [map]. rewrite nth_error_app2; rewrite map_length; [now rewrite Nat.sub_diag|lia]. Qed.
Definition pending (q i : nat) (l : list member_code) (s : S) (len : Z) : status * S :=
  match read_range rd q (i - q) s len with
  | (Success, s', len') => read_members rd (map needs l) i s' len'
  | (e, s', _) => (e, s')
  end.
Lemma pending_skip q pre m l s len : needs m = false -> (q <= length pre)%nat ->
  pending q (length (pre ++ [m])) l s len = pending q (length pre) (m :: l) s len.
Proof.
  intros N Q. unfold pending. rewrite app_length. cbn [length].
  replace (length pre + 1 - q)%nat with ((length pre - q) + 1)%nat by lia. rewrite read_range_app.
  destruct (read_range rd q (length pre - q) s len) as [[[|c] s'] len']; [|reflexivity].
  replace (q + (length pre - q))%nat with (length pre) by lia. cbn [map read_members read_range]. rewrite N.
  destruct (rd_field rd (length pre) s' len') as [[[|c] s''] len'']; reflexivity.
Qed.
Lemma pending_prepared pre m l s len : needs m = true ->
  pending (length pre) (length (pre ++ [m])) l (rd_prepare rd (length pre) s) len = read_members rd (map needs (m :: l)) (length pre) s len.
Proof.
  intro N. unfold pending. rewrite app_length. cbn [length].
  replace (length pre + 1 - length pre)%nat with 1%nat by lia. cbn [map read_members read_range]. rewrite N.
  destruct (rd_field rd (length pre) _ len) as [[[|c] s''] len'']; reflexivity.
Qed.
Lemma run_prog l : forall pre first prev q s len, all = pre ++ l ->
  match prev with None => q = O | Some p => index_of p names = Some q end -> (q <= length pre)%nat ->
  (first = true -> pre = [] /\ prev = None) ->
  let (r, q') := prog_from first prev l in
  exists len', run_loop rd names (r ++ [last_read q']) (Success, s, len) = Some (pending q (length pre) l s len, len').
Proof.
  induction l as [|m l IH]; intros pre first prev q s len E Q Le F.
  - cbn [prog_from app]. rewrite app_nil_r in E. assert (length names = length pre) as Ln by (unfold names; now rewrite map_length, E).
    unfold pending. cbn [map read_members]. destruct prev as [p|]; cbn [last_read run_loop]; rewrite ?Q, Ln.
    + destruct (read_range rd q (length pre - q) s len) as [[[|c] s'] len']; eexists; reflexivity.
    + rewrite Nat.sub_0_r. destruct (read_range rd 0 (length pre) s len) as [[[|c] s'] len']; eexists; reflexivity.
  - assert (all = (pre ++ [m]) ++ l) as E' by (rewrite <- app_assoc; exact E).
    assert (q <= length (pre ++ [m]))%nat as Le' by (rewrite app_length; lia).
    cbn [prog_from]. destruct (needs m) eqn:N; cbn [negb].
    2: { specialize (IH (pre ++ [m]) false prev q s len E' Q Le' ltac:(discriminate)). rewrite pending_skip in IH by assumption. exact IH. }
    pose proof (at_index pre m l E) as Im. destruct first.
    + destruct (F eq_refl) as [-> ->]. subst q. cbn [length] in Im |- *.
      specialize (IH [m] false None O (rd_prepare rd 0 s) len E' eq_refl (Nat.le_0_l _) ltac:(discriminate)).
      destruct (prog_from false None l) as [r q']. cbn [app run_loop]. rewrite Im.
      destruct IH as (len' & IH). exists len'. rewrite IH. f_equal. f_equal. change (length [m]) with (length ([] ++ [m])).
      change O with (length (@nil member_code)) at 1 3. rewrite pending_prepared by assumption. reflexivity.
    + specialize (IH (pre ++ [m]) false (Some (mc_name m)) (length pre)).
      destruct (prog_from false (Some (mc_name m)) l) as [r q']. cbn [app].
      assert (forall s' len', exists len'', run_loop rd names (RCheck :: RPrepare (mc_name m) :: r ++ [last_read q']) (Success, s', len') =
        Some (read_members rd (map needs (m :: l)) (length pre) s' len', len'')) as K.
      { intros s' len'. cbn [run_loop]. rewrite Im. destruct (IH (rd_prepare rd (length pre) s') len' E' Im ltac:(rewrite app_length; lia) ltac:(discriminate)) as (len'' & ->).
        exists len''. rewrite pending_prepared by assumption. reflexivity. }
      unfold pending. destruct prev as [p|].
      * assert (forall rest, run_loop rd names (RFromUntil p (mc_name m) :: rest) (Success, s, len) = run_loop rd names rest (read_range rd q (length pre - q) s len)) as ->.
        { intro rest. cbn [run_loop]. now rewrite Q, Im, (proj2 (Nat.leb_le _ _) Le). }
        destruct (read_range rd q (length pre - q) s len) as [[[|c] s'] len']; [apply K|]. eexists; reflexivity.
      * subst q. rewrite Nat.sub_0_r. assert (forall rest, run_loop rd names (RUntil (mc_name m) :: rest) (Success, s, len) = run_loop rd names rest (read_range rd 0 (length pre) s len)) as ->.
        { intro rest. cbn [run_loop]. now rewrite Im. }
        destruct (read_range rd 0 (length pre) s len) as [[[|c] s'] len']; [apply K|]. eexists; reflexivity.
Qed.
Lemma run_program s len : program all <> [] -> exists len', run_loop rd names (program all) (Success, s, len) = Some (read_members rd (map needs all) 0 s len, len').
Proof.
  intro N. unfold program in *. pose proof (run_prog all [] true None O s len eq_refl eq_refl (Nat.le_0_l _) ltac:(now split)) as R.
  destruct (prog_from true None all) as [r q]. destruct r as [|c r]; [congruence|]. exact R.
Qed.
End Running.
Lemma program_nil l : program l = [] <-> existsb needs l = false.
Proof.
  unfold program.
  assert (forall l first prev, fst (prog_from first prev l) = [] <-> existsb needs l = false) as K.
  { clear l. induction l as [|m l IH]; intros first prev; [split; reflexivity|]. cbn [prog_from existsb]. destruct (needs m); cbn [negb orb]; [|apply IH].
    destruct first.
    - destruct (prog_from false prev l). split; discriminate.
    - destruct (prog_from false (Some (mc_name m)) l). split; discriminate. }
  specialize (K l true None). destruct (prog_from true None l) as [r q]. cbn [fst] in K. destruct r as [|c r]; [exact K|].
  split; intro H; [destruct r; discriminate H|]. apply K in H. discriminate.
Qed.

(** ** The functions *)
Ltac fill n :=
  match goal with |- context [genProcessTemplate ?t ?kv ?b] =>
    let l := eval vm_compute in (match cut_template n t with Some l => l | None => [] end) in
    let E := fresh "E" in let Tt := fresh "Tt" in let out := fresh "out" in
    destruct (template_tokens n t l kv b ltac:(vm_compute; reflexivity)) as (out & E & Tt); rewrite E end.
(** the texts of some holes may be replaced by others with the same tokens *)
Lemma swap_holes kv kv' l : same_code l l = true -> map fst kv = map fst kv' -> Forall2 (fun p q => tokens (snd p) = tokens (snd q)) kv kv' ->
  tokens (substituted (fun k => lookup k kv) l) = tokens (substituted (fun k => lookup k kv') l).
Proof.
  intros S Ek F. apply same_tokens; [exact S|]. intro k. clear S. revert kv' Ek F.
  induction kv as [|[a v] kv IH]; intros [|[a' v'] kv'] Ek F; try discriminate Ek; [reflexivity|].
  cbn [map fst] in Ek. assert (a = a') as <- by congruence. inversion F as [|? ? ? ? H1 H2]; subst. cbn [snd] in H1.
  cbn [lookup]. destruct (str_eqb k a); [exact H1|]. apply IH; [congruence|exact H2].
Qed.
Lemma tokens_cons c x : tokens (c :: x) = if space_char c then tokens x else if negb (ident_char c) then [c] :: tokens x
  else if starts x then [c] :: tokens x else match tokens x with w :: ws => (c :: w) :: ws | [] => [[c]] end.
Proof.
  destruct x as [|d x]; [reflexivity|]. unfold starts. change (tokens (c :: d :: x)) with
    (if space_char c then tokens (d :: x) else if negb (ident_char c) then [c] :: tokens (d :: x) else
     if ident_char d then match tokens (d :: x) with w :: ws => (c :: w) :: ws | [] => [[c]] end else [c] :: tokens (d :: x)).
  destruct (ident_char d); reflexivity.
Qed.
Lemma unindent_tokens s : forall b, tokens (CondCode.unindent b s) = tokens s.
Proof.
  induction s as [|c s IH]; intro b; [reflexivity|]. cbn [CondCode.unindent].
  destruct (ascii_dec c " ") as [->|N].
  - destruct b; cbn [andb]; [rewrite IH; reflexivity|].
    change (tokens (" "%char :: ?x)) with (tokens x). apply IH.
  - rewrite andb_false_r.
    assert (forall x y, tokens x = tokens y -> (ident_char c = true -> starts x = starts y) -> tokens (c :: x) = tokens (c :: y)) as K.
    { intros x y H Hs. rewrite !tokens_cons, H. destruct (space_char c); [reflexivity|]. destruct (ident_char c); cbn [negb]; [|reflexivity].
      now rewrite (Hs eq_refl). }
    apply K; [apply IH|]. intro I. destruct (ascii_dec c newline) as [->|_]; [discriminate I|].
    destruct s as [|d s]; [reflexivity|]. reflexivity.
Qed.
Ltac swapped kv' := match goal with |- tokens (substituted (fun k => lookup k ?kv) ?l) = _ =>
  rewrite (swap_holes kv kv' l); [|vm_compute; reflexivity|reflexivity|repeat (apply Forall2_cons; [cbn [snd]; first [reflexivity|assumption]|]); apply Forall2_nil] end.
Lemma bundle_read_tokens l : program l <> [] -> exists out, bundle_read l = Ok out /\ tokens out = tokens (print_loop false (program l) (T "return es;")).
Proof.
  intro N. unfold bundle_read. destruct (reads_of_tokens false l) as [Ht Hn].
  destruct (is_nil (reads_of false l)); [exfalso; apply N, Hn; reflexivity|].
  fill 20%nat. exists out. split; [reflexivity|]. rewrite Tt. clear E Tt.
  swapped [(L "READS", print_rs false (program l))]. unfold print_loop. generalize (print_rs false (program l)). intro p. cbn [substituted].
  look. same_holes [(T "P", p)].
Qed.
Lemma bundle_read_none l : program l = [] -> bundle_read l = Ok [].
Proof. intro N. unfold bundle_read. now rewrite (proj2 (proj2 (reads_of_tokens false l)) N). Qed.
Lemma read_condition_tokens ce up c t : cond_text ce up [] true c = Ok t -> is_nil t = false ->
  exists out, read_condition ce up (Some c) = Ok out /\ is_nil out = false /\
    tokens out = tokens (T "bool validRead = " ++ t ++ T "; if (!validRead) { return comms::ErrorStatus::InvalidMsgData; }" ++ [newline]).
Proof.
  intros E N. unfold read_condition. rewrite E. cbn [bind]. rewrite N. fill 20%nat.
  exists out. split; [reflexivity|]. assert (forall P : Prop, P -> tokens out <> [] -> is_nil out = false /\ P) as K by (intros P HP H; split; [destruct out; [now elim H|reflexivity]|exact HP]).
  apply K.
  - rewrite Tt. cbn [substituted]. look. clear. same_holes [(T "P", t)].
  - rewrite Tt. cbn [substituted]. look. clear. rewrite tokens_l by (vm_compute; reflexivity). vm_compute. discriminate.
Qed.
Definition mr_pieces : list piece := Eval vm_compute in
  [Text (L "/// @brief Generated read functionality." ++ [nl] ++ L "template <typename TIter>" ++ [nl] ++ L "comms::ErrorStatus doRead(TIter& iter, std::size_t len)" ++ [nl] ++ L "{" ++ [nl] ++ L "    ");
   Hole (L "READ_COND"); Text ([nl] ++ L "    "); Hole (L "READS"); Text ([nl] ++ L "}" ++ [nl])].
Lemma message_read_tokens ge cond (c : option txt) (fail valid : bool) l :
  match c with
  | None => is_nil cond = true
  | Some t => is_nil cond = false /\ tokens cond = tokens (T "bool validRead = " ++ t ++ T "; if (!validRead) { return comms::ErrorStatus::InvalidMsgData; }" ++ [newline])
  end ->
  let f := mkRead c (ge_versionDependent ge) (match program l with [] => None | p => Some p end) (if fail then Some (negb valid) else None) in
  (c = None -> program l = [] -> message_read ge false cond fail valid l = Ok []) /\
  (c <> None \/ program l <> [] -> exists out, message_read ge false cond fail valid l = Ok out /\ tokens out = tokens (print_func f)).
Proof.
  intros Hc f. destruct (reads_of_tokens true l) as [Ht Hn]. split.
  - intros -> N. unfold message_read. rewrite Hc, (proj2 Hn N). reflexivity.
  - intro Any. unfold message_read.
    assert (is_nil cond && is_nil (reads_of true l) = false) as ->.
    { destruct Any as [N | N].
      - destruct c as [t|]; [|congruence]. destruct Hc as [-> _]. reflexivity.
      - destruct (is_nil (reads_of true l)); [exfalso; apply N, Hn; reflexivity|]. apply andb_false_r. }
    assert (exists code, (if is_nil (reads_of true l) then Ok (L "return Base::doRead(iter, len);" ++ [nl]) else
      f <- (if fail then genProcessTemplate fail_templ (if valid then [] else [(L "VALID_PREFIX", L "Base::")]) false else Ok []) ;;
      genProcessTemplate message_reads_templ
             [(L "READS", genStrListToString (reads_of true l) [nl] []);
              (L "UPDATE_VERSION", if ge_versionDependent ge then L "Base::doFieldsVersionUpdate();" else []);
              (L "FAIL_ON_INVALID", f)] false) = Ok code /\
      tokens code = tokens match rf_loop f with
        | None => T "return Base::doRead(iter, len);"
        | Some p => (if rf_update f then T "Base::doFieldsVersionUpdate();" ++ [newline] else []) ++
            print_loop true p (match rf_fail f with
              | Some b => T "if (!" ++ (if b then T "Base::" else []) ++ T "doValid()) { es = comms::ErrorStatus::InvalidMsgData; }"
              | None => [] end ++ T "return es;") end) as (code & -> & Tc).
    { unfold f. cbn [rf_loop rf_update rf_fail]. clear f. destruct (program l) as [|c0 p0] eqn:Ep.
      - rewrite (proj2 Hn eq_refl). eexists. split; [reflexivity|]. vm_compute. reflexivity.
      - destruct (is_nil (reads_of true l)); [discriminate (proj1 Hn eq_refl)|]. unfold print_loop. rewrite <- Ep in *. clear Ep c0 p0.
        assert (exists fl, (if fail then genProcessTemplate fail_templ (if valid then [] else [(L "VALID_PREFIX", L "Base::")]) false else Ok []) = Ok fl /\
          tokens fl = tokens (if fail then T "if (!" ++ (if valid then [] else T "Base::") ++ T "doValid()) { es = comms::ErrorStatus::InvalidMsgData; }" else [])) as (fl & -> & Tf).
        { destruct fail; [|exists []; split; reflexivity]. fill 20%nat. exists out. split; [reflexivity|]. rewrite Tt. clear.
          destruct valid; vm_compute; reflexivity. }
        cbn [bind]. fill 20%nat. exists out. split; [reflexivity|]. rewrite Tt. clear E Tt Hc Hn Any.
        swapped [(L "READS", print_rs true (program l)); (L "UPDATE_VERSION", if ge_versionDependent ge then L "Base::doFieldsVersionUpdate();" else []);
          (L "FAIL_ON_INVALID", if fail then T "if (!" ++ (if valid then [] else T "Base::") ++ T "doValid()) { es = comms::ErrorStatus::InvalidMsgData; }" else [])].
        generalize (print_rs true (program l)). intro p. clear. cbn [substituted]. look.
        destruct (ge_versionDependent ge), fail, valid; cbn [negb]; same_holes [(T "P", p)]. }
    cbn [bind]. fill 20%nat. exists out. split; [reflexivity|]. rewrite Tt. clear E Tt.
    match goal with |- tokens ?x = _ => assert (x = substituted (fun k => lookup k [(L "READ_COND", cond); (L "READS", code)]) mr_pieces) as -> by (cbn [substituted mr_pieces]; look; reflexivity) end.
    unfold print_func.
    change (rf_cond f) with c. revert Tc. generalize (match rf_loop f with
        | None => T "return Base::doRead(iter, len);"
        | Some p => (if rf_update f then T "Base::doFieldsVersionUpdate();" ++ [newline] else []) ++
            print_loop true p (match rf_fail f with
              | Some b => T "if (!" ++ (if b then T "Base::" else []) ++ T "doValid()) { es = comms::ErrorStatus::InvalidMsgData; }"
              | None => [] end ++ T "return es;") end). intros body Tc. clear f Any Ht Hn.
    destruct c as [t|].
    + destruct Hc as [_ Tcond].
      swapped [(L "READ_COND", T "bool validRead = " ++ t ++ T "; if (!validRead) { return comms::ErrorStatus::InvalidMsgData; }" ++ [newline]); (L "READS", body)].
      clear. unfold mr_pieces. cbn [substituted]. look. same_holes [(T "B", body); (T "C", t)].
    + destruct cond; [|discriminate]. swapped [(L "READ_COND", @nil ascii); (L "READS", body)].
      clear. unfold mr_pieces. cbn [substituted]. look. same_holes [(T "B", body)].
Qed.

Definition has_refresh (m : member_code) : bool := negb (is_nil (mc_refresh m)).
Definition refreshed (l : list member_code) : list txt := map mc_name (filter has_refresh l).
Lemma refreshes_tokens l : tokens (genStrListToString (refreshes l) [nl] []) =
  tokens (concat (map (fun m => T "updated = refresh_" ++ m ++ T "() || updated;" ++ [newline]) (refreshed l))).
Proof.
  rewrite FactoryFacts.list_tokens. unfold refreshes, refreshed. change (fun m => negb (is_nil (mc_refresh m))) with has_refresh.
  induction (filter has_refresh l) as [|m r IH]; [reflexivity|].
  match goal with |- flat_map _ (map ?f (?m :: ?r)) = tokens (concat (map ?g (map ?h (?m :: ?r)))) =>
    change (tokens (f m) ++ flat_map tokens (map f r) = tokens (g (h m) ++ concat (map g (map h r)))) end.
  rewrite IH. cbv beta.
  replace (T "updated = refresh_" ++ mc_name m ++ T "() || updated;" ++ [newline]) with ((L "updated = refresh_" ++ mc_name m ++ L "() || updated;") ++ [nl]) by (rewrite <- !app_assoc; reflexivity).
  rewrite stmt_nl. reflexivity.
Qed.
Lemma refreshes_nil l : is_nil (refreshes l) = true <-> refreshed l = [].
Proof. unfold refreshes, refreshed. change (fun m => negb (is_nil (mc_refresh m))) with has_refresh. destruct (filter has_refresh l); split; intro H; try reflexivity; discriminate H. Qed.
Lemma bundle_refresh_tokens l : refreshed l <> [] -> exists out, bundle_refresh l = Ok out /\ tokens out = tokens (print_refresh false (refreshed l)).
Proof.
  intro N. unfold bundle_refresh. destruct (is_nil (refreshes l)) eqn:E0; [exfalso; apply N, refreshes_nil, E0|]. clear E0 N. pose proof (refreshes_tokens l) as Tr.
  fill 20%nat. exists out. split; [reflexivity|]. rewrite Tt. clear E Tt. unfold print_refresh. revert Tr.
  generalize (concat (map (fun m => T "updated = refresh_" ++ m ++ T "() || updated;" ++ [newline]) (refreshed l))). intros p Tr.
  swapped [(L "FIELDS", p)]. clear. cbn [substituted]. look. same_holes [(T "P", p)].
Qed.
Definition mf_pieces : list piece := Eval vm_compute in
  [Text (L "/// @brief Generated refresh functionality." ++ [nl] ++ L "bool doRefresh()" ++ [nl] ++ L "{" ++ [nl] ++ L "   bool updated = Base::doRefresh();" ++ [nl] ++ L "   ");
   Hole (L "FIELDS"); Text ([nl] ++ L "   return updated;" ++ [nl] ++ L "}" ++ [nl])].
Lemma message_refresh_tokens l : refreshed l <> [] -> exists out, message_refresh false l = Ok out /\ tokens out = tokens (print_refresh true (refreshed l)).
Proof.
  intro N. unfold message_refresh. cbn [orb]. destruct (is_nil (refreshes l)) eqn:E0; [exfalso; apply N, refreshes_nil, E0|]. clear E0 N. pose proof (refreshes_tokens l) as Tr.
  fill 20%nat. exists out. split; [reflexivity|]. rewrite Tt. clear E Tt. unfold print_refresh. revert Tr.
  match goal with |- _ -> tokens ?x = _ => assert (x = substituted (fun k => lookup k [(L "FIELDS", genStrListToString (refreshes l) [nl] [])]) mf_pieces) as -> by (cbn [substituted mf_pieces]; look; reflexivity) end.
  generalize (concat (map (fun m => T "updated = refresh_" ++ m ++ T "() || updated;" ++ [newline]) (refreshed l))). intros p Tr.
  swapped [(L "FIELDS", p)]. clear. unfold mf_pieces. cbn [substituted]. look. same_holes [(T "P", p)].
Qed.
Lemma run_refreshed {S} (rf : refresher S) all : NoDup (map mc_name all) -> forall l pre u s, all = pre ++ l ->
  run_refresh rf (map mc_name all) (refreshed l) u s = Some (refresh_members rf (map has_refresh l) (length pre) u s).
Proof.
  intros Nd. induction l as [|m l IH]; intros pre u s E; [reflexivity|].
  assert (all = (pre ++ [m]) ++ l) as E' by (rewrite <- app_assoc; exact E).
  assert (length (pre ++ [m]) = (length pre + 1)%nat) as Le by (rewrite app_length; reflexivity).
  unfold refreshed. cbn [map filter refresh_members]. destruct (has_refresh m).
  - cbn [map run_refresh]. rewrite (at_index all Nd pre m l E). destruct (rf_member rf (length pre) s) as [u' s'].
    fold (refreshed l). rewrite (IH (pre ++ [m])), Le by exact E'. reflexivity.
  - fold (refreshed l). rewrite (IH (pre ++ [m])), Le by exact E'. reflexivity.
Qed.

Lemma def_tokens (templ type name code m : txt) :
  (exists out, genProcessTemplate templ [(L "ACC_NAME", m); (L "CODE", code)] false = Ok out /\
     tokens out = tokens (type ++ T " " ++ (name ++ m) ++ T "()" ++ [nl] ++ T "{" ++ [nl] ++ T "    " ++ code ++ [nl] ++ T "}" ++ [nl])) ->
  exists out, genProcessTemplate templ [(L "ACC_NAME", m); (L "CODE", code)] false = Ok out /\ tokens out = tokens (print_def type (name ++ m) code).
Proof.
  intros (out & E & Tt). exists out. split; [exact E|]. rewrite Tt. unfold print_def. generalize (name ++ m). intro n. clear. 
  assert (forall x : txt, tokens (type ++ T " " ++ x) = tokens type ++ tokens x) as K.
  { intro x. change (T " ") with [" "%char]. rewrite tokens_r by reflexivity. reflexivity. }
  rewrite !K. apply (f_equal (fun x => tokens type ++ x)). same_holes [(T "N", n); (T "C", code)].
Qed.
Lemma prepare_def_tokens m code : exists out, genProcessTemplate prepare_def_templ [(L "ACC_NAME", m); (L "CODE", code)] false = Ok out /\
  tokens out = tokens (print_def (T "void") (T "readPrepare_" ++ m) code).
Proof.
  apply def_tokens. fill 20%nat. exists out. split; [reflexivity|]. rewrite Tt. apply (f_equal tokens). cbn [substituted]. look. rewrite <- ?app_assoc. reflexivity.
Qed.
Lemma refresh_def_tokens m code : exists out, genProcessTemplate refresh_def_templ [(L "ACC_NAME", m); (L "CODE", code)] false = Ok out /\
  tokens out = tokens (print_def (T "bool") (T "refresh_" ++ m) code).
Proof.
  apply def_tokens. fill 20%nat. exists out. split; [reflexivity|]. rewrite Tt. apply (f_equal tokens). cbn [substituted]. look. rewrite <- ?app_assoc. reflexivity.
Qed.
Lemma mapM_total {A B C} (f : A -> res B) (R : C -> B -> Prop) (g : A -> C) l : (forall a, In a l -> exists b, f a = Ok b /\ R (g a) b) ->
  exists bs, mapM f l = Ok bs /\ Forall2 R (map g l) bs.
Proof.
  induction l as [|a l IH]; intro H; [exists []; split; [reflexivity|constructor]|].
  destruct (H a (or_introl eq_refl)) as (b & E & Rb). destruct IH as (bs & Es & F); [intros x I; apply H; now right|].
  exists (b :: bs). cbn [mapM]. rewrite E. cbn [bind]. rewrite Es. split; [reflexivity|]. cbn [map]. now constructor.
Qed.

Definition mv_pieces : list piece := Eval vm_compute in
  [Text (L "// Generated validity check functionality" ++ [nl] ++ L "bool doValid() const" ++ [nl] ++ L "{" ++ [nl] ++ L "    if (!Base::doValid()) {" ++ [nl] ++
     L "        return false;" ++ [nl] ++ L "    }" ++ [nl] ++ [nl] ++ L "    return" ++ [nl] ++ L "        ");
   Hole (L "CODE"); Text (L ";" ++ [nl] ++ L "}" ++ [nl])].
Lemma message_valid_tokens ce up sibs c t : cond_text ce up sibs true c = Ok t -> is_nil t = false ->
  exists out, message_valid ce up sibs (Some c) = Ok out /\ tokens out = tokens (print_valid true t).
Proof.
  intros E N. unfold message_valid. rewrite E. cbn [bind]. rewrite N. fill 20%nat. exists out. split; [reflexivity|]. rewrite Tt. clear.
  match goal with |- tokens ?x = _ => assert (x = substituted (fun k => lookup k [(L "CODE", t)]) mv_pieces) as -> by (cbn [substituted mv_pieces]; look; reflexivity) end.
  unfold print_valid, mv_pieces. cbn [substituted]. look. same_holes [(T "C", t)].
Qed.
Lemma bundle_valid_tokens ce up sibs c t : cond_text ce up sibs true c = Ok t -> is_nil t = false ->
  exists out, bundle_valid ce up sibs (Some c) = Ok out /\ tokens out = tokens (print_valid false t).
Proof.
  intros E N. unfold bundle_valid. rewrite E. cbn [bind]. rewrite N. fill 20%nat. exists out. split; [reflexivity|]. rewrite Tt. clear.
  unfold print_valid. cbn [substituted]. look. same_holes [(T "C", t)].
Qed.

(** ** Which members have code *)
Lemma find_some n sibs : In n (map f_name sibs) -> exists g, find_named n sibs = Some g.
Proof.
  induction sibs as [|f sibs IH]; [intros []|]. unfold find_named. cbn [map find]. destruct (str_eqb (f_name f) n) eqn:E; [eauto|].
  intros [H | H]; [exfalso; rewrite H, str_eqb_refl in E; discriminate|]. now apply IH.
Qed.
Lemma sibling_some sibs s n path : path_text s (n :: path) -> In n (map f_name sibs) -> s <> [] /\ exists g rest, prefix_sibling sibs s = Some (g, rest).
Proof.
  intros (-> & _ & W) I. inversion W as [|? ? Wn _]; subst. split.
  - destruct Wn as [_ Wn]. intro H. apply (f_equal (fun s => first_seg s)) in H. rewrite word_seg in H by (now inversion W).
    assert (n <> []) as Nn. { apply word_nonnil. now inversion W. } unfold first_seg in H. cbn in H. congruence.
  - unfold prefix_sibling. rewrite word_seg by (now inversion W). destruct (find_some n sibs I) as (g & ->). cbn [option_map]. eauto.
Qed.
Lemma nonempty_r (x y : txt) : starts y = true -> tokens y <> [] -> tokens (x ++ y) <> [].
Proof. intros S H. rewrite tokens_r by exact S. intro E. apply app_eq_nil in E as [_ E]. now apply H. Qed.
Lemma nonempty_l (x y : txt) : ends x = true -> tokens x <> [] -> tokens (x ++ y) <> [].
Proof. intros S H. rewrite tokens_l by exact S. intro E. apply app_eq_nil in E as [E _]. now apply H. Qed.
Definition shown (s : txt) : bool := match s with [] => false | _ => true end.
Lemma prepare_one_some ge up sibs f s func l : prepare_one ge up sibs f s func = Ok l ->
  s = [] \/ (exists n path, path_text s (n :: path) /\ In n (map f_name sibs)) -> if shown s then exists t, l = [t] /\ tokens t <> [] else l = [].
Proof.
  intros E [-> | (n & path & P & I)]; [injection E as <-; reflexivity|]. destruct (sibling_some _ _ _ _ P I) as (Ns & g & rest & Es).
  destruct s as [|c s]; [congruence|]. cbn [shown]. unfold prepare_one in E. cbn [is_nil] in E. rewrite Es in E.
  destruct (field_access ge up f [] (access_prefix f)) as [x| |] eqn:Ex; try discriminate. cbn [bind] in E. revert E.
  destruct (is_nil (opt_checks ge up f [] (access_prefix f) ++ opt_checks ge up g rest (access_prefix g))).
  - fill 20%nat. cbn [bind]. intro H. apply Ok_inj in H as <-. exists out. split; [reflexivity|]. rewrite Tt. cbn [substituted]. look.
    repeat match goal with |- tokens ([] ++ ?x) <> [] => change ([] ++ x) with x end. apply nonempty_r; [reflexivity|]. apply nonempty_l; [reflexivity|]. vm_compute. discriminate.
  - fill 20%nat. cbn [bind]. intro H. apply Ok_inj in H as <-. exists out. split; [reflexivity|]. rewrite Tt. cbn [substituted]. look.
    apply nonempty_l; [vm_compute; reflexivity|]. vm_compute. discriminate.
Qed.
Lemma tokens_some t : tokens t <> [] -> is_nil t = false.
Proof. destruct t; [intro H; now elim H|reflexivity]. Qed.
Lemma prepare_some ce up sibs f t : member_prepare ce up sibs f = Ok t -> prefixes_known sibs f -> is_nil t = negb (needs_prepare f).
Proof.
  intros E K. unfold prefixes_known in K.
  assert (forall l l', flat_map tokens l = l' -> l' <> [] -> is_nil (genStrListToString l [nl] []) = false) as Kl.
  { intros l l' <- H. apply tokens_some. now rewrite FactoryFacts.list_tokens. }
  destruct f as [c s|c s|c s|c s|c en ms vc|c ms als vc|c s pre|c s pre|c s elem cnt len elen term|c b g|c s own g d|c d ms];
    cbn [member_prepare prepare_body] in E; try (apply Ok_inj in E as <-; reflexivity).
  - destruct (prepare_one (ce_gen ce) up sibs (FString c s pre) (st_detached s) (L "forceReadLength")) as [l| |] eqn:E1; try discriminate. cbn [bind] in E. apply Ok_inj in E as <-.
    apply prepare_one_some in E1; [|eapply K; left; reflexivity]. cbn [needs_prepare prefixes existsb fst]. destruct (st_detached s); cbn [shown] in E1.
    + subst l. reflexivity.
    + destruct E1 as (t & -> & H). cbn [concat]. rewrite app_nil_r. now rewrite (tokens_some _ H).
  - destruct (prepare_one (ce_gen ce) up sibs (FData c s pre) (d_detached s) (L "forceReadLength")) as [l| |] eqn:E1; try discriminate. cbn [bind] in E. apply Ok_inj in E as <-.
    apply prepare_one_some in E1; [|eapply K; left; reflexivity]. cbn [needs_prepare prefixes existsb fst]. destruct (d_detached s); cbn [shown] in E1.
    + subst l. reflexivity.
    + destruct E1 as (t & -> & H). cbn [concat]. rewrite app_nil_r. now rewrite (tokens_some _ H).
  - match goal with H : (bind ?x _) = _ |- _ => destruct x as [l1| |] eqn:E1; try discriminate end. cbn [bind] in E.
    match goal with H : (bind ?x _) = _ |- _ => destruct x as [l2| |] eqn:E2; try discriminate end. cbn [bind] in E.
    match goal with H : (bind ?x _) = _ |- _ => destruct x as [l3| |] eqn:E3; try discriminate end. cbn [bind] in E. apply Ok_inj in E as <-.
    apply prepare_one_some in E1; [|eapply K; left; reflexivity]. apply prepare_one_some in E2; [|eapply K; right; left; reflexivity].
    apply prepare_one_some in E3; [|eapply K; right; right; left; reflexivity]. cbn [needs_prepare prefixes existsb fst].
    destruct (l_detCount s); cbn [shown] in E1; [subst l1|destruct E1 as (t1 & -> & H1)];
      (destruct (l_detLength s); cbn [shown] in E2; [subst l2|destruct E2 as (t2 & -> & H2)]);
      (destruct (l_detElemLength s); cbn [shown] in E3; [subst l3|destruct E3 as (t3 & -> & H3)]); cbn [app orb negb];
      first [reflexivity | eapply Kl; [reflexivity|]; cbn [flat_map]; intro X; repeat (apply app_eq_nil in X as [? X]); contradiction].
  - destruct d; apply Ok_inj in E as <-; reflexivity.
Qed.
Lemma refresh_seq_some ge up sibs f s t : refresh_seq ge up sibs f s = Ok t ->
  s = [] \/ (exists n path, path_text s (n :: path) /\ In n (map f_name sibs)) -> is_nil t = negb (shown s).
Proof.
  intros E [-> | (n & path & P & I)]; [apply Ok_inj in E as <-; reflexivity|]. destruct (sibling_some _ _ _ _ P I) as (Ns & g & rest & Es).
  destruct s as [|c s]; [congruence|]. cbn [shown negb]. unfold refresh_seq in E. cbn [is_nil] in E. rewrite Es in E.
  destruct (field_access ge up g rest (access_prefix g)) as [a| |] eqn:Ea; try discriminate. cbn [bind] in E.
  destruct (field_access ge up f [] (access_prefix f)) as [x| |] eqn:Ex; try discriminate. cbn [bind] in E. revert E.
  fill 20%nat. intro H. apply Ok_inj in H as <-. apply tokens_some. rewrite Tt. cbn [substituted]. look.
  apply nonempty_l; [vm_compute; reflexivity|]. vm_compute. discriminate.
Qed.
Lemma refresh_one_some ge up sibs x s k l : refresh_one ge up sibs x s k = Ok l ->
  s = [] \/ (exists n path, path_text s (n :: path) /\ In n (map f_name sibs)) -> is_nil l = negb (shown s).
Proof.
  intros E [-> | (n & path & P & I)]; [apply Ok_inj in E as <-; reflexivity|]. destruct (sibling_some _ _ _ _ P I) as (Ns & g & rest & Es).
  destruct s as [|c s]; [congruence|]. cbn [shown negb]. unfold refresh_one in E. cbn [is_nil] in E.
  match goal with H : (bind ?x _) = _ |- _ => destruct x as [r| |]; try discriminate end. cbn [bind] in E.
  match goal with H : (bind ?x _) = _ |- _ => destruct x as [d| |]; try discriminate end. cbn [bind] in E. rewrite Es in E.
  match goal with H : (bind ?x _) = _ |- _ => destruct x as [a| |]; try discriminate end. cbn [bind] in E.
  match goal with H : (bind ?x _) = _ |- _ => destruct x as [t| |]; try discriminate end. cbn [bind] in E. apply Ok_inj in E as <-. reflexivity.
Qed.
Lemma refresh_some ce up sibs f t : member_refresh ce up sibs f = Ok t -> prefixes_known sibs f ->
  match f with FOptional _ _ _ _ (Some c) => exists u, cond_text ce up sibs false c = Ok u /\ u <> [] | _ => True end ->
  is_nil t = negb (needs_prepare f).
Proof.
  intros E K C. unfold prefixes_known in K.
  destruct f as [c s|c s|c s|c s|c en ms vc|c ms als vc|c s pre|c s pre|c s elem cnt len elen term|c b g|c s own g d|c d ms];
    cbn [member_refresh CommsPrefix.refresh_body] in E; try (apply Ok_inj in E as <-; reflexivity).
  - apply refresh_seq_some in E; [|eapply K; left; reflexivity]. cbn [needs_prepare prefixes existsb fst]. rewrite E. destruct (st_detached s); reflexivity.
  - apply refresh_seq_some in E; [|eapply K; left; reflexivity]. cbn [needs_prepare prefixes existsb fst]. rewrite E. destruct (d_detached s); reflexivity.
  - unfold refresh_list in E.
    match goal with H : (bind ?x _) = _ |- _ => destruct x as [x0| |]; try discriminate end. cbn [bind] in E.
    match goal with H : (bind ?x _) = _ |- _ => destruct x as [l1| |] eqn:E1; try discriminate end. cbn [bind] in E.
    match goal with H : (bind ?x _) = _ |- _ => destruct x as [l2| |] eqn:E2; try discriminate end. cbn [bind] in E.
    match goal with H : (bind ?x _) = _ |- _ => destruct x as [l3| |] eqn:E3; try discriminate end. cbn [bind] in E.
    apply refresh_one_some in E1; [|eapply K; left; reflexivity]. apply refresh_one_some in E2; [|eapply K; right; left; reflexivity].
    apply refresh_one_some in E3; [|eapply K; right; right; left; reflexivity]. cbn [needs_prepare prefixes existsb fst].
    assert (is_nil (l1 ++ l2 ++ l3) = negb (shown (l_detCount s) || (shown (l_detLength s) || (shown (l_detElemLength s) || false)))) as En.
    { destruct l1, (shown (l_detCount s)); try discriminate; [|reflexivity]. destruct l2, (shown (l_detLength s)); try discriminate; [|reflexivity].
      destruct l3, (shown (l_detElemLength s)); try discriminate; reflexivity. }
    unfold shown in En. rewrite <- En. destruct (is_nil (l1 ++ l2 ++ l3)); [apply Ok_inj in E as <-; reflexivity|].
    revert E. fill 20%nat. intro H. apply Ok_inj in H as <-. apply tokens_some. rewrite Tt. cbn [substituted]. look.
    apply nonempty_l; [vm_compute; reflexivity|]. vm_compute. discriminate.
  - destruct d as [c0|]; [|apply Ok_inj in E as <-; reflexivity]. destruct C as (u & Eu & Nu). unfold CommsCond.refresh_body in E. rewrite Eu in E. cbn [bind] in E.
    destruct u as [|a u]; [congruence|]. cbn [is_nil] in E. revert E.
    match goal with |- genProcessTemplate ?t ?kv ?b = _ -> _ =>
      let l := eval vm_compute in (match cut_template 30 t with Some l => l | None => [] end) in
      destruct (template_tokens 30 t l kv b ltac:(vm_compute; reflexivity)) as (out & E & Tt); rewrite E end.
    intro H. apply Ok_inj in H as <-. cbn [needs_prepare negb]. apply tokens_some. rewrite Tt. cbn [substituted].
    apply nonempty_l; [vm_compute; reflexivity|]. vm_compute. discriminate.
Qed.

Lemma codes_of ce up all sibs l : mapM (fun f => p <- member_prepare ce up all f ;; r <- member_refresh ce up all f ;;
                 Ok (mkCode (genAccessName (f_name f)) p r)) sibs = Ok l ->
  Forall2 (fun f m => mc_name m = genAccessName (f_name f) /\ member_prepare ce up all f = Ok (mc_prepare m) /\ member_refresh ce up all f = Ok (mc_refresh m)) sibs l.
Proof.
  revert l. induction sibs as [|f sibs IH]; intros l E; cbn [mapM] in E; [apply Ok_inj in E as <-; constructor|].
  destruct (member_prepare ce up all f) as [p| |] eqn:Ep; try discriminate. cbn [bind] in E.
  destruct (member_refresh ce up all f) as [r| |] eqn:Er; try discriminate. cbn [bind] in E.
  match goal with H : (bind ?x _) = _ |- _ => destruct x as [l'| |] eqn:El; try discriminate end. cbn [bind] in E. apply Ok_inj in E as <-.
  constructor; [repeat split; assumption|]. now apply IH.
Qed.
Lemma codes_needs ce up sibs l : member_codes ce up sibs = Ok l -> Forall (prefixes_known sibs) sibs ->
  map mc_name l = map (fun f => genAccessName (f_name f)) sibs /\ map needs l = map needs_prepare sibs /\
  (Forall (fun f => match f with FOptional _ _ _ _ (Some c) => exists u, cond_text ce up sibs false c = Ok u /\ u <> [] | _ => True end) sibs ->
   map has_refresh l = map needs_prepare sibs).
Proof.
  unfold member_codes. intros E K. apply codes_of in E. 
  assert (forall sb, Forall (prefixes_known sibs) sb -> Forall2 (fun f m => mc_name m = genAccessName (f_name f) /\ member_prepare ce up sibs f = Ok (mc_prepare m) /\ member_refresh ce up sibs f = Ok (mc_refresh m)) sb l ->
    map mc_name l = map (fun f => genAccessName (f_name f)) sb /\ map needs l = map needs_prepare sb /\
    (Forall (fun f => match f with FOptional _ _ _ _ (Some c) => exists u, cond_text ce up sibs false c = Ok u /\ u <> [] | _ => True end) sb ->
     map has_refresh l = map needs_prepare sb)) as H; [|now apply H].
  clear E K. intros sb K F. induction F as [|f m sb l (H1 & H2 & H3) F IH]; [repeat split; intros; reflexivity|].
  inversion K as [|? ? Kf Kr]; subst. destruct (IH Kr) as (I1 & I2 & I3). cbn [map]. split; [congruence|]. split.
  - rewrite I2. f_equal. unfold needs. rewrite (prepare_some _ _ _ _ _ H2 Kf). apply negb_involutive.
  - intro C. inversion C as [|? ? Cf Cr]; subst. rewrite (I3 Cr). f_equal. unfold has_refresh. rewrite (refresh_some _ _ _ _ _ H3 Kf Cf). apply negb_involutive.
Qed.
