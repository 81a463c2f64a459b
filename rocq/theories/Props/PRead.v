(** C72, C73: reading and refreshing the members of messages and bundles, their validity. *)
From Coq Require Import Lia ZifyBool ZifyNat Arith.
From Verif.Model Require Import Base Common Xml Units Field FieldCommon IntField OptCond Composite Message GenUtil GenComms CommsInt CommsCond CommsPrefix CommsRead.
From Verif.Spec Require Import Texts Ints FieldSpec GenSpec CppSpec TokenSpec Ex CondCode CondTyping PrefixCode ReadCode.
From Verif.Proofs Require Import BaseFacts CommonFacts ExFacts CondCodeFacts CondTextFacts CondMeanFacts TokenFacts PrefixFacts ReadFacts.
From Verif.Proofs Require CommsIntFacts.
From Verif.Props Require Import PCondCode PPrefix PAlias.
Local Open Scope string_scope. Local Open Scope Z_scope. Local Open Scope list_scope.

(** the names of the members in the generated code *)
Definition access_names (fs : list field) : list txt := map (fun f => genAccessName (f_name f)) fs.
(** every condition of an optional member gives an expression *)
Definition conditions_shown (ce : cond_env) (up : list velem) (fs : list field) : Prop :=
  Forall (fun f => match f with FOptional _ _ _ _ (Some c) => exists u, cond_text ce up fs false c = Ok u /\ u <> [] | _ => True end) fs.
Lemma exists_map {A} (h : A -> bool) l : existsb (fun b => b) (map h l) = existsb h l.
Proof. induction l as [|a l IH]; [reflexivity|]. cbn [map existsb]. now rewrite IH. Qed.
Lemma exists_eq {A B} (h : A -> bool) (k : B -> bool) l l' : map h l = map k l' -> existsb h l = existsb k l'.
Proof. intro E. now rewrite <- exists_map, E, exists_map. Qed.

Lemma Forall2_weak {A B} (P Q : A -> B -> Prop) l l' : (forall a b, P a b -> Q a b) -> Forall2 P l l' -> Forall2 Q l l'.
Proof. intros H F. induction F; constructor; auto. Qed.

(** [m_ovr]: what the schema says about code given by the user (read, write, refresh, ...) *)
Lemma not_replaced m k : nth_error (m_ovr m) k <> Some OvrReplace -> replaced_code m k = false.
Proof. intro H. unfold replaced_code. destruct (nth_error (m_ovr m) k) as [[]|]; try reflexivity. congruence. Qed.

(** A bundle: if some member needs it there is a function which reads the members one after another, each
    of those which need it prepared immediately before it is read; otherwise there is none
    (the base class reads member after member). *)
Theorem C72_bundle_read : forall ce up fs l,
  member_codes ce up fs = Ok l -> Forall (prefixes_known fs) fs -> NoDup (access_names fs) ->
  (existsb needs_prepare fs = false -> bundle_read l = Ok []) /\
  (existsb needs_prepare fs = true -> exists out prog, bundle_read l = Ok out /\
     tokens out = tokens (print_loop false prog (T "return es;")) /\
     forall S (rd : reader S) s len, exists len',
       run_loop rd (access_names fs) prog (Success, s, len) = Some (read_members rd (map needs_prepare fs) 0 s len, len')).
Proof.
  intros ce up fs l E K Nd. destruct (codes_needs _ _ _ _ E K) as (En & Ed & _). fold (access_names fs) in En. split; intro H.
  - apply bundle_read_none, program_nil. now rewrite (exists_eq _ _ _ _ Ed).
  - assert (program l <> []) as Np. { rewrite program_nil, (exists_eq _ _ _ _ Ed), H. discriminate. }
    destruct (bundle_read_tokens l Np) as (out & Eo & Tt). exists out, (program l). split; [exact Eo|]. split; [exact Tt|].
    intros S rd s len. rewrite <- En, <- Ed. apply run_program; [now rewrite En|exact Np].
Qed.
Print Assumptions C72_bundle_read.

(** A message: nothing is read if the condition for reading is not met; otherwise the fields learn the version and the members are read in the same way. *)
Theorem C72_message_read : forall ce up m l v,
  member_codes ce up (m_fields m) = Ok l -> Forall (prefixes_known (m_fields m)) (m_fields m) -> NoDup (access_names (m_fields m)) ->
  nth_error (m_ovr m) 0 <> Some OvrReplace -> existsb needs_prepare (m_fields m) = true ->
  message_valid ce up (m_fields m) (m_validCond m) = Ok v ->
  match m_readCond m with Some c => exists t, cond_text ce up [] true c = Ok t /\ t <> [] | None => True end ->
  exists out f, message_read_code ce up m = Ok out /\ tokens out = tokens (print_func f) /\
    match m_readCond m with Some c => exists t, rf_cond f = Some t /\ cond_text ce up [] true c = Ok t | None => rf_cond f = None end /\
    forall S (rd : reader S) s len,
      (m_readCond m <> None -> run_func rd (access_names (m_fields m)) f false s len = Some (invalid, s)) /\
      let told := if ge_versionDependent (ce_gen ce) then rd_update rd s else s in
      let (e, s') := read_members rd (map needs_prepare (m_fields m)) 0 told len in
      run_func rd (access_names (m_fields m)) f true s len =
        Some (if m_failOnInvalid m && negb (if is_nil v then rd_base_valid rd s' else rd_valid rd s') then invalid else e, s').
Proof.
  intros ce up m l v El K Nd Nr H Ev Hc. apply not_replaced in Nr. destruct (codes_needs _ _ _ _ El K) as (En & Ed & _). fold (access_names (m_fields m)) in En.
  assert (program l <> []) as Np. { rewrite program_nil, (exists_eq _ _ _ _ Ed), H. discriminate. }
  set (c := match m_readCond m with Some c => match cond_text ce up [] true c with Ok t => Some t | _ => None end | None => None end).
  assert (exists cond, read_condition ce up (m_readCond m) = Ok cond /\ match c with
    | None => is_nil cond = true
    | Some t => is_nil cond = false /\ tokens cond = tokens (T "bool validRead = " ++ t ++ T "; if (!validRead) { return comms::ErrorStatus::InvalidMsgData; }" ++ [newline]) end) as (cond & Ec & Cc).
  { unfold c. destruct (m_readCond m) as [c0|]; [|exists []; split; reflexivity]. destruct Hc as (t & Et & Nt). rewrite Et.
    destruct (read_condition_tokens ce up c0 t Et) as (out & Eo & No & To); [destruct t; [congruence|reflexivity]|]. exists out. auto. }
  destruct (message_read_tokens (ce_gen ce) cond c (m_failOnInvalid m) (negb (is_nil v)) l Cc) as (_ & T2).
  destruct (T2 (or_intror Np)) as (out & Eo & Tt). eexists out, _. unfold message_read_code. rewrite El. cbn [bind]. rewrite Ec. cbn [bind]. rewrite Ev. cbn [bind]. rewrite Nr.
  split; [exact Eo|]. split; [exact Tt|]. split.
  { cbn [rf_cond]. unfold c. destruct (m_readCond m) as [c0|]; [|reflexivity]. destruct Hc as (t & Et & _). exists t. rewrite Et. auto. }
  intros S rd s len. unfold run_func. cbn [rf_cond rf_loop rf_update rf_fail]. split.
  - unfold c. destruct (m_readCond m) as [c0|]; [|congruence]. destruct Hc as (t & Et & _). rewrite Et. reflexivity.
  - assert (match c with Some _ => negb true | None => false end = false) as -> by (destruct c; reflexivity).
    destruct (program l) as [|p0 p] eqn:Ep; [congruence|]. rewrite <- Ep.
    set (told := if ge_versionDependent (ce_gen ce) then rd_update rd s else s).
    destruct (run_program rd l ltac:(now rewrite En) told len ltac:(congruence)) as (len' & R). rewrite En, Ed in R. rewrite R.
    destruct (read_members rd (map needs_prepare (m_fields m)) 0 told len) as [e s']. f_equal. f_equal.
    destruct (m_failOnInvalid m); [|reflexivity]. cbn [andb]. rewrite negb_involutive. destruct (is_nil v).
    + destruct (rd_base_valid rd s'); reflexivity.
    + destruct (rd_valid rd s'); reflexivity.
Qed.
Print Assumptions C72_message_read.
(** Without such members only the condition remains; without condition there is no function. *)
Theorem C72_message_plain : forall ce up m l v,
  member_codes ce up (m_fields m) = Ok l -> Forall (prefixes_known (m_fields m)) (m_fields m) ->
  nth_error (m_ovr m) 0 <> Some OvrReplace -> existsb needs_prepare (m_fields m) = false ->
  message_valid ce up (m_fields m) (m_validCond m) = Ok v ->
  match m_readCond m with
  | None => message_read_code ce up m = Ok []
  | Some c => forall t, cond_text ce up [] true c = Ok t -> t <> [] ->
      exists out f, message_read_code ce up m = Ok out /\ tokens out = tokens (print_func f) /\ rf_cond f = Some t /\
        forall S (rd : reader S) s len,
          run_func rd (access_names (m_fields m)) f false s len = Some (invalid, s) /\
          run_func rd (access_names (m_fields m)) f true s len = Some (read_members rd (map (fun _ => false) (m_fields m)) 0 s len)
  end.
Proof.
  intros ce up m l v El K Nr H Ev. apply not_replaced in Nr. destruct (codes_needs _ _ _ _ El K) as (En & Ed & _). fold (access_names (m_fields m)) in En.
  assert (program l = []) as Np. { rewrite program_nil, (exists_eq _ _ _ _ Ed). exact H. }
  unfold message_read_code. rewrite El. cbn [bind]. rewrite Ev, Nr. destruct (m_readCond m) as [c|].
  - intros t Et Nt. destruct (read_condition_tokens ce up c t Et) as (cond & Ec & No & To); [destruct t; [congruence|reflexivity]|].
    rewrite Ec. cbn [bind]. destruct (message_read_tokens (ce_gen ce) cond (Some t) (m_failOnInvalid m) (negb (is_nil v)) l (conj No To)) as (_ & T2).
    destruct T2 as (out & Eo & Tt); [left; discriminate|]. eexists out, _. split; [exact Eo|]. split; [exact Tt|]. split; [reflexivity|].
    intros S rd s len. unfold run_func. cbn [rf_cond rf_loop negb]. split; [reflexivity|]. rewrite Np.
    rewrite read_none by (clear; induction (m_fields m); [reflexivity|assumption]).
    unfold access_names. rewrite !map_length. destruct (read_range rd 0 (length (m_fields m)) s len) as [[e s'] len']. reflexivity.
  - cbn [read_condition bind]. destruct (message_read_tokens (ce_gen ce) [] None (m_failOnInvalid m) (negb (is_nil v)) l eq_refl) as (T1 & _).
    now apply T1.
Qed.
Print Assumptions C72_message_plain.

(** Refreshing: the function of the base class, then each member whose extent or existence depends on others, once and in
    order; the result tells whether one of them changed something. *)
Theorem C72_refresh : forall ce up fs l,
  member_codes ce up fs = Ok l -> Forall (prefixes_known fs) fs -> NoDup (access_names fs) -> conditions_shown ce up fs ->
  (existsb needs_prepare fs = false -> bundle_refresh l = Ok [] /\ message_refresh false l = Ok []) /\
  (existsb needs_prepare fs = true -> exists out out' called, bundle_refresh l = Ok out /\ message_refresh false l = Ok out' /\
     tokens out = tokens (print_refresh false called) /\ tokens out' = tokens (print_refresh true called) /\
     forall S (rf : refresher S) u s, run_refresh rf (access_names fs) called u s = Some (refresh_members rf (map needs_prepare fs) 0 u s)).
Proof.
  intros ce up fs l E K Nd C. destruct (codes_needs _ _ _ _ E K) as (En & _ & Er). fold (access_names fs) in En. specialize (Er C). 
  assert (refreshed l = [] <-> existsb needs_prepare fs = false) as Hn.
  { rewrite <- (exists_eq _ _ _ _ Er). unfold refreshed. clear. induction l as [|m l IH]; [split; reflexivity|]. cbn [filter existsb].
    destruct (has_refresh m); cbn [orb map]; [split; discriminate|exact IH]. }
  split; intro H.
  - apply Hn in H. apply refreshes_nil in H. unfold bundle_refresh, message_refresh. now rewrite H, orb_true_r.
  - assert (refreshed l <> []) as N. { rewrite Hn, H. discriminate. }
    destruct (bundle_refresh_tokens l N) as (o1 & E1 & T1). destruct (message_refresh_tokens l N) as (o2 & E2 & T2).
    exists o1, o2, (refreshed l). repeat (split; [assumption|]). intros S rf u s. rewrite <- En, <- Er. apply (run_refreshed rf l ltac:(now rewrite En) l [] u s eq_refl).
Qed.
Print Assumptions C72_refresh.
Theorem C72_message_refresh : forall ce up m, let fs := m_fields m in
  is_Ok (member_codes ce up fs) = true -> Forall (prefixes_known fs) fs -> NoDup (access_names fs) -> conditions_shown ce up fs ->
  nth_error (m_ovr m) 2 <> Some OvrReplace -> 
  (existsb needs_prepare fs = false -> message_refresh_code ce up m = Ok []) /\
  (existsb needs_prepare fs = true -> exists out called, message_refresh_code ce up m = Ok out /\ tokens out = tokens (print_refresh true called) /\
     forall S (rf : refresher S) u s, run_refresh rf (access_names fs) called u s = Some (refresh_members rf (map needs_prepare fs) 0 u s)).
Proof.
  intros ce up m fs E K Nd C Nr. unfold message_refresh_code. fold fs. destruct (member_codes ce up fs) as [l| |] eqn:El; try discriminate E.
  cbn [bind]. rewrite (not_replaced _ _ Nr). destruct (C72_refresh ce up fs l El K Nd C) as [R1 R2]. split; intro H.
  - now apply R1.
  - destruct (R2 H) as (o & o' & called & _ & E' & _ & T' & R). exists o', called. auto.
Qed.
Print Assumptions C72_message_refresh.
(** The functions they call are defined, exactly those, with the code of the member (see C54, C71), and the base class is told that there is a function. *)
Theorem C72_defined : forall ce up fs l,
  member_codes ce up fs = Ok l -> Forall (prefixes_known fs) fs -> conditions_shown ce up fs ->
  exists ps rs, prepare_defs l = Ok ps /\ refresh_defs l = Ok rs /\
    Forall2 (fun f out => exists code, member_prepare ce up fs f = Ok code /\ tokens out = tokens (print_def (T "void") (T "readPrepare_" ++ genAccessName (f_name f)) code)) (filter needs_prepare fs) ps /\
    Forall2 (fun f out => exists code, member_refresh ce up fs f = Ok code /\ tokens out = tokens (print_def (T "bool") (T "refresh_" ++ genAccessName (f_name f)) code)) (filter needs_prepare fs) rs /\
    (In (T "comms::option::def::HasCustomRead") (custom_opts false l) <-> existsb needs_prepare fs = true) /\
    forall msg, In (T "comms::option::def::HasCustomRefresh") (custom_opts msg l) <-> existsb needs_prepare fs = true.
Proof.
  intros ce up fs l E K C. destruct (codes_needs _ _ _ _ E K) as (_ & Ed & Er). specialize (Er C). unfold member_codes in E. apply codes_of in E.
  destruct (mapM_total (fun m => genProcessTemplate prepare_def_templ [(L "ACC_NAME", mc_name m); (L "CODE", mc_prepare m)] false)
    (fun m out => tokens out = tokens (print_def (T "void") (T "readPrepare_" ++ mc_name m) (mc_prepare m))) (fun m => m) (filter needs l)) as (ps & Ep & Fp).
  { intros m _. destruct (prepare_def_tokens (mc_name m) (mc_prepare m)) as (o & Eo & To). eauto. }
  destruct (mapM_total (fun m => genProcessTemplate refresh_def_templ [(L "ACC_NAME", mc_name m); (L "CODE", mc_refresh m)] false)
    (fun m out => tokens out = tokens (print_def (T "bool") (T "refresh_" ++ mc_name m) (mc_refresh m))) (fun m => m) (filter has_refresh l)) as (rs & Es & Fs).
  { intros m _. destruct (refresh_def_tokens (mc_name m) (mc_refresh m)) as (o & Eo & To). eauto. }
  exists ps, rs. split; [exact Ep|]. split; [exact Es|]. rewrite map_id in Fp, Fs.
  assert (forall (h : member_code -> bool) sb lb (outs : list txt) (R : member_code -> txt -> Prop), Forall2 (fun f m => mc_name m = genAccessName (f_name f) /\ member_prepare ce up fs f = Ok (mc_prepare m) /\ member_refresh ce up fs f = Ok (mc_refresh m)) sb lb ->
    map h lb = map needs_prepare sb -> Forall2 R (filter h lb) outs ->
    Forall2 (fun f out => exists m, (mc_name m = genAccessName (f_name f) /\ member_prepare ce up fs f = Ok (mc_prepare m) /\ member_refresh ce up fs f = Ok (mc_refresh m)) /\ R m out) (filter needs_prepare sb) outs) as G.
  { clear. intros h sb lb outs R F. revert outs. induction F as [|f m sb lb H F IH]; intros outs Em Fo; [cbn [filter] in *; inversion Fo; constructor|].
    cbn [map] in Em. injection Em as E1 E2. cbn [filter] in *. rewrite E1 in Fo. destruct (needs_prepare f); [|now apply IH].
    destruct outs as [|o os]; [inversion Fo|]. assert (R m o /\ Forall2 R (filter h lb) os) as [Ro Fo'] by (inversion Fo; auto). constructor; [exists m; auto|]. now apply IH. }
  split. { eapply Forall2_weak; [|apply (G needs fs l ps _ E Ed Fp)]. intros f o (m & (H1 & H2 & _) & H3). cbv beta in H3. rewrite H1 in H3. eauto. }
  split. { eapply Forall2_weak; [|apply (G has_refresh fs l rs _ E Er Fs)]. intros f o (m & (H1 & _ & H2) & H3). cbv beta in H3. rewrite H1 in H3. eauto. }
  change (existsb (fun m => negb (is_nil (mc_prepare m))) l) with (existsb needs l).
  split; [|intro msg]; unfold custom_opts.
  - change (existsb (fun m => negb (is_nil (mc_prepare m))) l) with (existsb needs l). rewrite (exists_eq _ _ _ _ Ed).
    change (existsb (fun m => negb (is_nil (mc_refresh m))) l) with (existsb has_refresh l). rewrite (exists_eq _ _ _ _ Er).
    destruct (existsb needs_prepare fs); cbn [negb andb app In]; split; intro H; auto; try discriminate H; try contradiction.
  - change (existsb (fun m => negb (is_nil (mc_prepare m))) l) with (existsb needs l). rewrite (exists_eq _ _ _ _ Ed).
    change (existsb (fun m => negb (is_nil (mc_refresh m))) l) with (existsb has_refresh l). rewrite (exists_eq _ _ _ _ Er).
    destruct (existsb needs_prepare fs), msg; cbn [negb andb app In]; split; intro H; auto; try discriminate H; try contradiction.
Qed.
Print Assumptions C72_defined.


(** ** Validity *)
Definition pv_pieces (msg : bool) : list piece :=
  if msg then [Text (T "// Generated validity check functionality" ++ [newline] ++ T "bool doValid() const {" ++ [newline] ++ T "if (!Base::doValid()) { return false; } return " ++ [newline]); Hole (T "E"); Text (T ";}")]
  else [Text (T "if (!Base::valid()) { return false; } return " ++ [newline]); Hole (T "E"); Text (T ";")].
Lemma print_valid_tokens msg a b : tokens a = tokens b -> tokens (print_valid msg a) = tokens (print_valid msg b).
Proof.
  intro H. assert (forall e, print_valid msg e = substituted (fun k => lookup k [(T "E", e)]) (pv_pieces msg)) as G.
  { intro e. destruct msg; unfold print_valid, pv_pieces; cbn [substituted]; look; rewrite ?app_nil_r, <- ?app_assoc; reflexivity. }
  rewrite !G. apply swap_holes; [destruct msg; vm_compute; reflexivity|reflexivity|]. apply Forall2_cons; [exact H|apply Forall2_nil].
Qed.
(** The function of a message or bundle which tells whether it is valid returns false if the base
    class finds a member invalid, and otherwise what the condition of the schema means on the values of the members. *)
Theorem C73_valid_partial : forall ce up sibs env c b,
  typed_env (ce_gen ce) up sibs env -> accessible (VMembers env) -> supported_cond env c -> means env c b ->
  exists outM outB e, message_valid ce up sibs (Some c) = Ok outM /\ bundle_valid ce up sibs (Some c) = Ok outB /\
    tokens outM = tokens (print_valid true (print e)) /\ tokens outB = tokens (print_valid false (print e)) /\ value env e b.
Proof.
  intros ce up sibs env c b Te Ac Su Me. destruct (cond_says ce up sibs env Te Ac c true b Su Me) as (t & e & E & L & V).
  pose proof (lay_nonnil _ _ L) as N. destruct (message_valid_tokens ce up sibs c t E N) as (o1 & E1 & T1).
  destruct (bundle_valid_tokens ce up sibs c t E N) as (o2 & E2 & T2).
  assert (tokens t = tokens (print e)) as Q. { rewrite <- (unindent_tokens t false). apply (f_equal tokens (lay_code _ _ L)). }
  exists o1, o2, e. split; [exact E1|]. split; [exact E2|]. split; [rewrite T1; now apply print_valid_tokens|].
  split; [rewrite T2; now apply print_valid_tokens|exact V].
Qed.
Print Assumptions C73_valid_partial.
(** Without condition the one of the base class is used. *)
Theorem C73_none : forall ce up sibs, message_valid ce up sibs None = Ok [] /\ bundle_valid ce up sibs None = Ok [].
Proof. split; reflexivity. Qed.
Print Assumptions C73_none.
(** A condition dropped as a whole leaves code without expression. *)
Definition ask_valid (l : list string) : node := el "or" [] (map (fun v => el "validCond" [("value", v)] []) l).
Definition x_str := el "string" [("name", "Str")] [].
Definition valid_bundle (l : list string) : field := got_field (ex_global [] (el "bundle" [("name", "B")] [el "members" [] [late_set; late_int; x_str]; el "validCond" [] [ask_valid l]])).
Theorem C73_lost_refuted : match valid_bundle ["$?n"; "$?flags"] with
  | FBundle _ ms _ (Some c) => c = CList false [CExpr [] [] (T "$?n"); CExpr [] [] (T "$?flags")] /\
      exists out, bundle_valid (ex_ce plain_ge) [] ms (Some c) = Ok out /\ tokens out = tokens (T "if (!Base::valid()) { return false; } return ();")
  | _ => False end.
Proof. vm_compute. split; [reflexivity|]. eexists. split; reflexivity. Qed.
Print Assumptions C73_lost_refuted.

(** An optional member with a condition is prepared by refreshing its mode, one without is not prepared. *)
Theorem C72_optional : forall ce up fs c s own g cnd p, member_prepare ce up fs (FOptional c s own g cnd) = Ok p ->
  match cnd with
  | Some _ => tokens p = tokens (T "refresh_" ++ genAccessName (c_name c) ++ T "();")
  | None => p = []
  end.
Proof.
  intros ce up fs c s own g cnd p H. unfold member_prepare in H. cbn [f_name f_common] in H. destruct cnd; apply CommsIntFacts.Ok_inj in H; subst p; [|reflexivity].
  match goal with |- tokens ?x = _ => assert (x = (T "refresh_" ++ genAccessName (c_name c) ++ T "();") ++ nl :: []) as -> by (rewrite <- !app_assoc; reflexivity) end.
  rewrite tokens_nl. apply app_nil_r.
Qed.
Print Assumptions C72_optional.

(** ** Where it goes wrong *)
(** The condition of an optional member is dropped from the generated code: reading prepares the member with a function which is not defined. *)
Theorem C72_lost_refuted : exists f l, is_Ok (ex_global [] (bundle_with (ask ["$?n"; "$?flags"]))) = true /\
  nth_error (fields_with (ask ["$?n"; "$?flags"])) 3 = Some f /\
  member_codes (ex_ce plain_ge) [] (fields_with (ask ["$?n"; "$?flags"])) = Ok l /\
  member_prepare (ex_ce plain_ge) [] (fields_with (ask ["$?n"; "$?flags"])) f = Ok (T "refresh_last();" ++ [newline]) /\
  refresh_defs l = Ok [].
Proof. do 2 eexists. split; [vm_compute; reflexivity|]. split; [vm_compute; reflexivity|]. split; [vm_compute; reflexivity|]. split; vm_compute; reflexivity. Qed.
Print Assumptions C72_lost_refuted.

(** The status of a failed read is replaced if the message asks for validity after reading. *)
Definition ex_failing : message := got_message (message_parse (ex_menv []) (message_el "M" "1" [("failOnInvalid", "true")] [x_bits; x_cnt;
  el "data" [("name", "d"); ("lengthPrefix", "$bits.Len")] []])).
Definition no_data : status := Failed (T "NotEnoughData").
(** nothing can be read, and what was read is not valid *)
Definition empty_reader : reader unit := mkReader unit (fun _ s len => (no_data, s, len)) (fun _ s => s) (fun s => s) (fun _ => false) (fun _ => false).
Lemma known_by fs : Forall (fun l => forall s func, In (s, func) l -> s = [] \/ exists n path, path_text s (n :: path) /\ In n (map f_name fs)) (map prefixes fs) -> Forall (prefixes_known fs) fs.
Proof. unfold prefixes_known. rewrite !Forall_forall. intros H f I. apply H. now apply in_map. Qed.
Theorem C72_fail_refuted : exists out f, message_read_code (ex_ce plain_ge) [] ex_failing = Ok out /\ tokens out = tokens (print_func f) /\
  read_members empty_reader (map needs_prepare (m_fields ex_failing)) 0 tt 0 = (no_data, tt) /\
  run_func empty_reader (access_names (m_fields ex_failing)) f true tt 0 = Some (invalid, tt) /\ no_data <> invalid.
Proof.
  assert (exists l, member_codes (ex_ce plain_ge) [] (m_fields ex_failing) = Ok l) as (l & El) by (eexists; vm_compute; reflexivity).
  destruct (C72_message_read (ex_ce plain_ge) [] ex_failing l [] El) as (out & f & E & Tt & _ & R).
  - apply known_by. assert (map prefixes (m_fields ex_failing) = [[]; []; [(T "bits.Len", T "forceReadLength")]]) as -> by (vm_compute; reflexivity).
    assert (map f_name (m_fields ex_failing) = [T "bits"; T "cnt"; T "d"]) as -> by (vm_compute; reflexivity).
    repeat (constructor; [intros s func H; repeat (destruct H as [H | H]; [apply pair_equal_spec in H as [<- <-]|]); try contradiction|]); [|constructor].
    right. exists (T "bits"), [T "Len"]. split; [|left; reflexivity]. split; [reflexivity|]. split; [discriminate|]. repeat (constructor; [word_lit|]). constructor.
  - vm_compute. repeat constructor; cbn; intuition discriminate.
  - vm_compute. discriminate.
  - vm_compute. reflexivity.
  - vm_compute. reflexivity.
  - vm_compute. exact I.
  - exists out, f. split; [exact E|]. split; [exact Tt|]. split; [reflexivity|]. split; [|discriminate]. destruct (R unit empty_reader tt 0) as [_ R2]. exact R2.
Qed.
Print Assumptions C72_fail_refuted.

(** ** An example *)
Definition x_opt := el "optional" [("name", "Last")] [el "field" [] [el "int" [("name", "y"); ("type", "uint8")] []]; el "cond" [("value", "$cnt = 3")] []].
Definition rd_fields : list field := Eval vm_compute in match got_field (ex_global [] (el "bundle" [("name", "B")] [x_bits; x_cnt; el "data" [("name", "d"); ("lengthPrefix", "$bits.Len")] []; x_elem; x_opt])) with FBundle _ ms _ _ => ms | _ => [] end.
Example C72_ex : length rd_fields = 5%nat /\ map needs_prepare rd_fields = [false; false; true; false; true] /\
  Forall (prefixes_known rd_fields) rd_fields /\ NoDup (access_names rd_fields) /\ conditions_shown (ex_ce plain_ge) [] rd_fields /\
  exists l, member_codes (ex_ce plain_ge) [] rd_fields = Ok l /\
    bundle_read l = Ok (join [newline] (map T [
      "auto es = comms::ErrorStatus::Success;";
      "do {";
      "    es = Base::template readUntilAndUpdateLen<FieldIdx_d>(iter, len);";
      "    if (es != comms::ErrorStatus::Success) {";
      "        break;";
      "    }"; "    ";
      "    readPrepare_d();"; "    ";
      "    es = Base::template readFromUntilAndUpdateLen<FieldIdx_d, FieldIdx_last>(iter, len);";
      "    if (es != comms::ErrorStatus::Success) {";
      "        break;";
      "    }"; "    ";
      "    readPrepare_last();"; "    ";
      "    es = Base::template readFrom<FieldIdx_last>(iter, len);"; "    ";
      "} while(false);";
      "return es;"])) /\
    bundle_refresh l = Ok (join [newline] (map T [
      "bool updated = Base::refresh();";
      "updated = refresh_d() || updated;";
      "updated = refresh_last() || updated;";
      "return updated;"; ""])) /\
    nth_error (match prepare_defs l with Ok ps => ps | _ => [] end) 1 = Some (join [newline] (map T ["void readPrepare_last()"; "{"; "    refresh_last();"; "    "; "}"; ""])).
Proof.
  split; [reflexivity|]. split; [vm_compute; reflexivity|]. split.
  { apply known_by. assert (map prefixes rd_fields = [[]; []; [(T "bits.Len", T "forceReadLength")]; []; []]) as -> by (vm_compute; reflexivity).
    assert (map f_name rd_fields = [T "bits"; T "cnt"; T "d"; T "e"; T "Last"]) as -> by (vm_compute; reflexivity).
    repeat (constructor; [intros s func H; repeat (destruct H as [H | H]; [apply pair_equal_spec in H as [<- <-]|]); try contradiction|]); [|constructor].
    right. exists (T "bits"), [T "Len"]. split; [|left; reflexivity]. split; [reflexivity|]. split; [discriminate|]. repeat (constructor; [word_lit|]). constructor. }
  split. { vm_compute. repeat constructor; cbn; intuition discriminate. }
  split. { unfold conditions_shown. unfold rd_fields at 2. repeat (constructor; [try exact I|]); [|constructor]. eexists. split; [vm_compute; reflexivity|discriminate]. }
  eexists. split; [vm_compute; reflexivity|]. split; [vm_compute; reflexivity|]. split; vm_compute; reflexivity.
Qed.
(** a message like that, with a condition for being read *)
Definition ex_conditional : message := got_message (message_parse (ex_menv []) (message_el "M" "1" [("failOnInvalid", "true"); ("validCond", "$cnt = 3")] [el "fields" [] [x_bits; x_cnt;
  el "data" [("name", "d"); ("lengthPrefix", "$bits.Len")] []]])).
Example C72_message_ex : m_failOnInvalid ex_conditional = true /\ existsb needs_prepare (m_fields ex_conditional) = true /\ nth_error (m_ovr ex_conditional) 0 <> Some OvrReplace /\
  message_read_code (ex_ce plain_ge) [] ex_conditional = Ok (join [newline] (map T [
      "/// @brief Generated read functionality.";
      "template <typename TIter>";
      "comms::ErrorStatus doRead(TIter& iter, std::size_t len)";
      "{";
      "    auto es = comms::ErrorStatus::Success;";
      "    do {";
      "        es = Base::template doReadUntilAndUpdateLen<FieldIdx_d>(iter, len);";
      "        if (es != comms::ErrorStatus::Success) {";
      "            break;";
      "        }"; "        ";
      "        readPrepare_d();"; "        ";
      "        es = Base::template doReadFrom<FieldIdx_d>(iter, len);"; "        ";
      "    } while (false);"; "    ";
      "    if (!doValid()) {";
      "        es = comms::ErrorStatus::InvalidMsgData;";
      "    }"; "    ";
      "    return es;"; "    ";
      "}"; ""])).
Proof. split; [vm_compute; reflexivity|]. split; [vm_compute; reflexivity|]. split; [vm_compute; discriminate|vm_compute; reflexivity]. Qed.
Example C73_ex : typed_env plain_ge [] ex_fields ex_env /\ accessible (VMembers ex_env) /\ supported_cond ex_env ex_cond /\ means ex_env ex_cond true /\
  bundle_valid (ex_ce plain_ge) [] exists_fields (Some (CExpr [] [] (T "$flags.hasN"))) = Ok (join [newline] (map T [
    "if (!Base::valid()) {";
    "    return false;";
    "}"; "";
    "return";
    "    field_flags().getBitValue_hasN();"; ""])).
Proof.
  pose proof C54_ex as (H1 & H2 & H3 & H4 & _). repeat (split; [assumption|]). vm_compute. reflexivity.
Qed.
