(** C58: the generated message factories, dispatch functions, lists of input
    messages and the enumeration of ids. *)
From Coq Require Import ZifyBool ZifyNat Sorted.
From Verif.Model Require Import Base Common Xml Units Field FieldCommon IntField EnumField SetField FloatField OptCond Composite Message Frame Protocol GenUtil GenComms CommsFactory.
From Verif.Spec Require Import Texts Ints IntSpec XmlSpec GenSpec ProtocolSpec NameSpec Ex TokenSpec FactorySpec.
From Verif.Proofs Require Import BaseFacts CommonFacts IntFacts GenFacts RangeFacts MapFacts ProtocolFacts RefFacts NameFacts MsgFacts TemplateFacts TokenFacts CommsIntFacts CondTextFacts FactoryFacts.
From Verif.Props Require Import ExProtocol PMessages PGen.
Local Open Scope string_scope. Local Open Scope Z_scope. Local Open Scope list_scope.

(** a namespace of an accepted protocol *)
Record in_protocol (s : protocol) (sc : schema) (path : list txt) (n : nspace) : Prop := {
  ip_accepted : exists multi stod docs, validate multi stod docs = Ok s;
  ip_schema : In sc (pr_schemas s);
  ip_ns : namespace_at (sc_ns sc) path n }.
Lemma ip_facts s sc path n : in_protocol s sc path n -> nss_ok (sc_ns sc) /\ ns_ok n /\ exists pre, path = pre ++ [ns_name n] /\ around path = ns_path pre.
Proof.
  intros [(multi & stod & docs & V) I A]. pose proof (validate_ok _ _ _ _ V) as P. unfold proto_ok in P. rewrite Forall_forall in P. pose proof (P _ I) as O.
  split; [exact O|]. destruct (path_cases _ _ _ O A) as [On _]. split; [exact On|]. destruct O as [S N R].
  destruct (at_name _ _ _ A) as [pre ->]; [intros k x J; now apply N|exact R|]. exists pre. split; [reflexivity|]. unfold around. now rewrite removelast_last.
Qed.

Section Lists.
  Context (s : protocol) (sc : schema) (path : list txt) (n : nspace) (H : in_protocol s sc path n) (p : option txt) (t : target).
  Let l := chosen path n (check_of p t).
  Let g := map_messages (check_of p t) (genGetAllMessagesIdSorted (around path) n).
  Lemma chosen_is_listing : listing sc path (wanted p t) l.
  Proof. destruct (ip_facts _ _ _ _ H) as (O & On & _). apply chosen_listing; [exact O|apply H|exact On|]. intro x. apply check_wanted. Qed.
  Lemma g_grouped : grouped g.
  Proof. apply map_messages_spec. Qed.
  Lemma g_find id : find_id id g = map place (with_id id l).
  Proof.
    unfold g. destruct (ip_facts _ _ _ _ H) as (_ & _ & pre & -> & ->). rewrite (proj2 (map_messages_spec _ _)), chosen_id. reflexivity.
  Qed.
  Lemma ids_good id : In id (map (fun x => m_id (snd x)) l) -> 0 <= id < 2 ^ 64.
  Proof.
    intro I. apply in_map_iff in I as ([q m] & <- & I). destruct (ip_facts _ _ _ _ H) as (O & _).
    destruct (listed_ok _ _ _ _ _ _ O chosen_is_listing I) as (_ & _ & A). now apply accepted_message_id.
  Qed.
  Lemma g_keys id : In id (map fst g) <-> In id (map (fun x => m_id (snd x)) l).
  Proof.
    split.
    - intro I. unfold g in I. apply map_messages_key in I as (m & I & C & <-). destruct (ip_facts _ _ _ _ H) as (_ & _ & pre & -> & E). rewrite E in I.
      assert (J : In m (filter (check_of p t) (genGetAllMessagesIdSorted (ns_path pre) n))) by (apply filter_In; auto).
      rewrite chosen_sorted in J. apply in_map_iff in J as (x & <- & J). apply in_map_iff. exists x. split; [reflexivity|exact J].
    - intro I. apply in_map_iff in I as (x & E & I). destruct (in_dec Z.eq_dec id (map fst g)) as [D|D]; [exact D|]. apply find_none in D. rewrite g_find in D.
      apply map_eq_nil in D. assert (J : In x (with_id id l)) by (apply filter_In; split; [exact I|lia]). rewrite D in J. contradiction.
  Qed.
  Lemma with_id_length id : (length (with_id id l) <= length l)%nat.
  Proof. unfold with_id. clear. induction l as [|x r IH]; [reflexivity|]. cbn [filter length]. destruct (_ =? _); cbn [length]; lia. Qed.
  Hypothesis few : Z.of_nat (length l) < 2 ^ 63.
  Hypothesis not_ub : Forall (fun x => m_id (snd x) <> 2 ^ 63) l.
  Lemma g_good : good_keys g.
  Proof.
    intros k I. apply g_keys in I. split; [now apply ids_good|]. apply in_map_iff in I as (x & <- & I). rewrite Forall_forall in not_ub. now apply not_ub.
  Qed.
  Lemma g_sizes : sizes_ok g.
  Proof.
    unfold sizes_ok. apply Forall_forall. intros [id ms] I. cbn [snd]. apply (find_In _ _ _ g_grouped) in I. rewrite <- I, g_find, map_length.
    pose proof (with_id_length id). change (2 ^ 63) with 9223372036854775808 in *. lia.
  Qed.
End Lists.

Lemma with_id_In id l x : In x (with_id id l) -> In x l.
Proof. intro I. apply filter_In in I. apply I. Qed.
Lemma all_listing s sc path n : in_protocol s sc path n -> listing sc path (fun _ _ => True) (chosen path n check_all).
Proof.
  intro H. destruct (ip_facts _ _ _ _ H) as (O & On & _). apply chosen_listing; [exact O|apply H|exact On|]. intro x. unfold check_all. tauto.
Qed.

(** ** selecting the messages *)
(** the lists of messages which are generated: of the protocol and of each platform, for both sides *)
Theorem C58_targets : forall platforms p t, In (p, t) (targets platforms) <-> p = None \/ exists x, p = Some x /\ In x platforms.
Proof.
  intros platforms p t. unfold targets. rewrite in_flat_map. split.
  - intros (x & [<-|I] & J).
    + left. cbn in J. intuition congruence.
    + apply in_map_iff in I as (y & <- & I). right. exists y. cbn in J. intuition congruence.
  - intros [-> | (x & -> & I)]; [exists None|exists (Some x)]; (split; [|destruct t; cbn; auto]); [now left|right; now apply in_map].
Qed.
Print Assumptions C58_targets.

(** the header with the std::tuple of messages: exactly the wanted ones, each once, by id and order *)
Definition tuple_args (main : txt) (l : list (list txt * message)) : txt :=
  join (T "," ++ [nl]) (map (fun x => message_class main (fst x) (snd x) ++ T "<TBase, TOpt>") l).
Theorem C58_input_list : forall s sc path n main p t, in_protocol s sc path n -> main <> [] ->
  exists l, listing sc path (wanted p t) l /\ input_list main (around path) n (check_of p t) = tuple_args main l.
Proof.
  intros s sc path n main p t H M. exists (chosen path n (check_of p t)). pose proof (chosen_is_listing _ _ _ _ H p t) as Li. split; [exact Li|].
  destruct (ip_facts _ _ _ _ H) as (O & _ & pre & E & E'). unfold input_list, tuple_args. rewrite E', chosen_sorted, map_map, <- E.
  rewrite <- list_join. f_equal. apply map_ext_in. intros [q m] I. cbn [fst snd]. destruct (listed_ok _ _ _ _ _ _ O Li I) as (Q & V & _).
  now rewrite class_scope.
Qed.
Print Assumptions C58_input_list.

(** ** the factory *)
Definition ids (l : list (list txt * message)) : list Z := map (fun x => m_id (snd x)) l.
Lemma with_id_nil l id : ~ In id (ids l) -> with_id id l = [].
Proof.
  intro N. unfold with_id. destruct (filter _ l) as [|x r] eqn:E; [reflexivity|]. exfalso. apply N. assert (I : In x (filter (fun x => m_id (snd x) =? id) l)) by (rewrite E; now left).
  apply filter_In in I as [I C]. apply in_map_iff. exists x. split; [lia|exact I].
Qed.
Lemma distinct_iff l : NoDup (ids l) <-> forall id, (length (with_id id l) <= 1)%nat.
Proof.
  induction l as [|x l IH]; cbn [ids map]; [split; [intros _ id; cbn; lia|constructor]|]. split.
  - intro N. inversion N as [|? ? N1 N2]; subst. intro id. unfold with_id. cbn [filter]. destruct (Z.eqb_spec (m_id (snd x)) id) as [<-|D].
    + cbn [length]. change (filter _ l) with (with_id (m_id (snd x)) l). now rewrite (with_id_nil l).
    + now apply IH.
  - intro F. constructor.
    + intro I. apply in_map_iff in I as (y & E & I). specialize (F (m_id (snd x))). unfold with_id in F. cbn [filter] in F. rewrite Z.eqb_refl in F. cbn [length] in F.
      assert (J : In y (filter (fun z => m_id (snd z) =? m_id (snd x)) l)) by (apply filter_In; split; [exact I|lia]).
      destruct (filter _ l); [contradiction|cbn [length] in F; lia].
    + apply IH. intro id. specialize (F id). unfold with_id in *. cbn [filter] in F. destruct (_ =? _); cbn [length] in F; lia.
Qed.
Lemma unique_iff s sc path n p t : in_protocol s sc path n ->
  factory_unique (map_messages (check_of p t) (genGetAllMessagesIdSorted (around path) n)) = true <-> NoDup (ids (chosen path n (check_of p t))).
Proof.
  intro H. rewrite distinct_iff. unfold factory_unique. rewrite forallb_forall. pose proof (g_find s sc path n H p t) as F. pose proof (g_grouped path n p t) as G. split.
  - intros A id. specialize (F id). destruct (grouped_find _ id G) as [[I _]|[_ E]].
    + apply A in I. cbn [snd] in I. apply Nat.leb_le in I. rewrite F, map_length in I. exact I.
    + rewrite E in F. symmetry in F. apply map_eq_nil in F. rewrite F. cbn. lia.
  - intros A [id ms] I. cbn [snd]. apply Nat.leb_le. apply (find_In _ _ _ G) in I. rewrite <- I, F, map_length. apply A.
Qed.

(** the code before the switch and the expressions of the code *)
Definition lambda : txt := T "auto updateReasonFunc = [reason](CreateFailureReason val) { if (reason != nullptr) { *reason = val; } }".
Definition set_none : txt := T "updateReasonFunc(CreateFailureReason::None)".
Definition set_invalid : txt := T "updateReasonFunc(CreateFailureReason::InvalidId)".
Definition new_message (main : txt) (x : list txt * message) : txt :=
  T "MsgPtr(new " ++ message_class main (fst x) (snd x) ++ T "<TInterface, TProtOptions>)".
(** createMsg(id, idx, reason) creates the message with that index among those with the id, otherwise none *)
Definition creates (main : txt) (l : list (list txt * message)) (prog : list stmt) : Prop :=
  forall id j, 0 <= id < 2 ^ 64 ->
    match nth_error (with_id id l) j with
    | Some x => runs id (Z.of_nat j) prog [lambda; set_none] (Returned (new_message main x))
    | None => exists done, runs id (Z.of_nat j) prog (done ++ [set_invalid]) (Returned (T "MsgPtr()"))
    end.
(** msgCount(id) *)
Definition counts (l : list (list txt * message)) (prog : list stmt) : Prop :=
  forall id idx, 0 <= id < 2 ^ 64 -> exists e, runs id idx prog [] (Returned e) /\ constant e (Z.of_nat (length (with_id id l))).
(** Missing: the id 2^63 (refuted below) *)
Theorem C58_factory_partial : forall s sc path n main p t, in_protocol s sc path n -> main <> [] ->
  exists l, listing sc path (wanted p t) l /\
    (Z.of_nat (length l) < 2 ^ 63 -> Forall (fun x => m_id (snd x) <> 2 ^ 63) l ->
     exists f create count, factory_of main (around path) n (check_of p t) = Ok f /\
       tokens (fa_create f) = tokens (program_text create) /\ Forall compiles create /\ creates main l create /\
       tokens (fa_count f) = tokens (program_text count) /\ Forall compiles count /\ counts l count /\
       (fa_unique f = true <-> NoDup (ids l))).
Proof.
  intros s sc path n main p t H M. exists (chosen path n (check_of p t)). pose proof (chosen_is_listing _ _ _ _ H p t) as Li. split; [exact Li|].
  intros few nub. pose proof (g_grouped path n p t) as G. pose proof (g_good _ _ _ _ H p t nub) as K. pose proof (g_sizes _ _ _ _ H p t few) as Z.
  pose proof (g_find _ _ _ _ H p t) as F. pose proof (unique_iff s sc path n p t H) as U.
  unfold factory_of. set (g := map_messages _ _) in *. cbv zeta.
  destruct (count_code_spec g K) as (cnt & -> & Ecnt). destruct (create_code_spec main (factory_unique g) g G K Z) as (cr & -> & Ecr).
  cbn [bind]. eexists _, (create_program main (factory_unique g) g), (count_program g). split; [reflexivity|]. cbn [fa_create fa_count fa_unique].
  split; [exact Ecr|]. split; [now apply create_compiles|]. split; [|split; [exact Ecnt|split; [now apply count_compiles|split; [|exact U]]]].
  - intros id j R. assert (U' : factory_unique g = true -> Forall (fun e => length (snd e) <= 1)%nat g).
    { unfold factory_unique. rewrite forallb_forall, Forall_forall. intros A e I. now apply Nat.leb_le, A. }
    pose proof (create_runs main (factory_unique g) g id j G K Z R U') as X. rewrite F in X. rewrite nth_error_map in X.
    destruct (nth_error (with_id id _) j) as [x|] eqn:E; cbn [option_map] in X.
    + unfold new_text in X. destruct x as [q m]. apply nth_error_In in E. apply filter_In in E as [E _].
      destruct (ip_facts _ _ _ _ H) as (O & _). destruct (listed_ok _ _ _ _ _ _ O Li E) as (Q & V & _). rewrite class_scope in X by assumption. exact X.
    + exact X.
  - intros id idx R. destruct (count_runs g id idx G K Z R) as (e & A & B). exists e. split; [exact A|]. rewrite F, map_length in B. exact B.
Qed.
Print Assumptions C58_factory_partial.

(** ** dispatch *)
Definition msg_type (main : txt) (x : list txt * message) : txt :=
  T "using MsgType = " ++ message_class main (fst x) (snd x) ++ T "<InterfaceType, TProtOptions>".
(** the message is passed to the handler as the class of [x], the last type named, or as the interface *)
Definition handled_as (main : txt) (x : option (list txt * message)) (done : list txt) (e : txt) : Prop :=
  match x with
  | Some x => (exists before, done = before ++ [msg_type main x]) /\ e = T "handler.handle(static_cast<MsgType&>(msg))"
  | None => e = T "handler.handle(msg)"
  end.
Definition dispatches (main name : txt) (l : list (list txt * message)) (indexed plain : list stmt) : Prop :=
  forall id, 0 <= id < 2 ^ 64 ->
    (exists done e, dispatched_by name indexed plain id None done e /\ handled_as main (nth_error (with_id id l) 0) done e) /\
    forall j, NoDup (ids l) \/ length (with_id id l) <> 1%nat \/ j = 0%nat ->
      exists done e, dispatched_by name indexed plain id (Some (Z.of_nat j)) done e /\ handled_as main (nth_error (with_id id l) j) done e.
(** what a run of the switch does *)
Lemma dispatch_one s sc path n main p t : in_protocol s sc path n -> main <> [] ->
  let l := chosen path n (check_of p t) in let g := map_messages (check_of p t) (genGetAllMessagesIdSorted (around path) n) in
  Z.of_nat (length l) < 2 ^ 63 -> Forall (fun x => m_id (snd x) <> 2 ^ 63) l ->
  forall id, 0 <= id < 2 ^ 64 ->
  let x j := match with_id id l with [x] => Some x | r => nth_error r j end in
  exists done, forall j, runs id (Z.of_nat j) (dispatch_program main g) (done (x j)) (Returned (match x j with Some _ => handle_text | None => default_text end)) /\
     handled_as main (x j) (done (x j)) (match x j with Some _ => handle_text | None => default_text end).
Proof.
  intros H M l g few nub id R x. pose proof (g_grouped path n p t) as G. pose proof (g_good _ _ _ _ H p t nub) as K. pose proof (g_sizes _ _ _ _ H p t few) as Z.
  pose proof (g_find _ _ _ _ H p t id) as F. fold l in F. fold g in F, G, K, Z. pose proof (chosen_is_listing _ _ _ _ H p t) as Li. fold l in Li.
  exists (fun y => match y with Some y => [interface_text; msg_type main y] | None => match with_id id l with [] => [interface_text; []] | _ => [interface_text] end end).
  intro j. pose proof (dispatch_runs main g id j G K Z R) as X. rewrite F in X.
  assert (E : dispatched (map place (with_id id l)) j = option_map place (x j)).
  { unfold x, dispatched. destruct (with_id id l) as [|a [|b r]]; cbn [map]; [now destruct j|reflexivity|]. change (place a :: place b :: map place r) with (map place (a :: b :: r)). apply nth_error_map. }
  rewrite E in X. assert (In' : forall y, x j = Some y -> In y l).
  { intros y Y. assert (J : In y (with_id id l)); [|now apply filter_In in J]. unfold x in Y. destruct (with_id id l) as [|a [|b r]]; [destruct j; discriminate|injection Y as <-; now left|now apply nth_error_In in Y]. }
  destruct (x j) as [[q m]|] eqn:Ex; cbn [option_map] in X.
  - specialize (In' _ eq_refl). destruct (ip_facts _ _ _ _ H) as (O & _). destruct (listed_ok _ _ _ _ _ _ O Li In') as (Q & V & _).
    unfold using_text in X. rewrite class_scope in X by assumption. split; [exact X|]. split; [now exists [interface_text]|reflexivity].
  - split; [|reflexivity]. destruct (with_id id l); exact X.
Qed.
(** Missing: the id 2^63, and an index other than 0 for an id of one message when other
    messages share theirs (both refuted below) *)
Theorem C58_dispatch_partial : forall s sc path n main name p t, in_protocol s sc path n -> main <> [] ->
  exists l, listing sc path (wanted p t) l /\
    (Z.of_nat (length l) < 2 ^ 63 -> Forall (fun x => m_id (snd x) <> 2 ^ 63) l ->
     exists d indexed plain, dispatch_of main name (around path) n (check_of p t) = Ok d /\
       tokens (di_with_idx d) = tokens (program_text indexed) /\ Forall compiles indexed /\
       tokens (di_without_idx d) = tokens (program_text plain) /\ Forall compiles plain /\
       dispatches main name l indexed plain).
Proof.
  intros s sc path n main name p t H M. exists (chosen path n (check_of p t)). pose proof (chosen_is_listing _ _ _ _ H p t) as Li. split; [exact Li|].
  intros few nub. pose proof (g_grouped path n p t) as G. pose proof (g_good _ _ _ _ H p t nub) as K. pose proof (g_sizes _ _ _ _ H p t few) as Z.
  pose proof (dispatch_one s sc path n main p t H M few nub) as D. cbv zeta in D. pose proof (unique_iff s sc path n p t H) as U.
  set (l := chosen path n (check_of p t)) in *. unfold dispatch_of. set (g := map_messages _ _) in *. cbv zeta.
  destruct (dispatch_code_spec main g K) as (cs & out & -> & Eo & To). cbn [bind]. rewrite Eo. cbn [bind].
  assert (NC : forall A (y : option A) nm, (match y with Some _ => handle_text | None => default_text end) <> call_plain nm /\ (match y with Some _ => handle_text | None => default_text end) <> call_first nm).
  { intros A [y|] nm; split; discriminate. }
  pose proof (dispatch_compiles main g G K Z) as Co.
  unfold dispatch_multiple. destruct (factory_unique g) eqn:Fu; cbn [negb].
  - destruct (single_idx_spec name) as (o & -> & Wo). cbn [bind]. eexists _, (single_indexed name), (dispatch_program main g).
    split; [reflexivity|]. cbn [di_with_idx di_without_idx]. split; [exact Wo|]. split; [repeat constructor|]. split; [exact To|]. split; [exact Co|].
    pose proof (proj1 U eq_refl) as ND. rewrite distinct_iff in ND. intros id R. specialize (ND id). destruct (D id R) as (done & X).
    assert (Y : forall j, (match with_id id l with [x] => Some x | r => nth_error r j end) = nth_error (with_id id l) 0).
    { intro j. destruct (with_id id l) as [|a [|b r]]; [now destruct j|reflexivity|cbn [length] in ND; lia]. }
    assert (P : dispatched_by name (single_indexed name) (dispatch_program main g) id None (done (nth_error (with_id id l) 0)) (match nth_error (with_id id l) 0 with Some _ => handle_text | None => default_text end) /\
                handled_as main (nth_error (with_id id l) 0) (done (nth_error (with_id id l) 0)) (match nth_error (with_id id l) 0 with Some _ => handle_text | None => default_text end)).
    { split; [|specialize (X 0%nat); rewrite Y in X; apply X]. apply db_plain; [|apply NC]. intros idx Hi. specialize (X (Z.to_nat idx)). rewrite Y, Z2Nat.id in X by exact Hi. apply X. }
    split; [eauto|]. intros j _. destruct j as [|j].
    + do 2 eexists. split; [|apply P]. apply (db_indexed_on _ _ _ _ _ [] _ _); [|apply P]. unfold single_indexed. apply run_skip; [|apply run_return]. intro N. apply N, zero_U.
    + exists [], default_text. assert (E : nth_error (with_id id l) (S j) = None) by (apply nth_error_None; lia). rewrite E. split; [|reflexivity].
      apply db_indexed; [|discriminate]. apply run_if; [|apply run_return]. intro C. pose proof (wc_det _ _ _ (or_introl C) (or_introl zero_U)). lia.
  - destruct (multi_plain_spec name) as (o & -> & Wo). cbn [bind]. eexists _, (dispatch_program main g), (multi_plain name).
    split; [reflexivity|]. cbn [di_with_idx di_without_idx]. split; [exact To|]. split; [exact Co|]. split; [exact Wo|]. split; [repeat constructor|].
    intros id R. destruct (D id R) as (done & X).
    assert (Y : forall j, length (with_id id l) <> 1%nat \/ j = 0%nat -> (match with_id id l with [x] => Some x | r => nth_error r j end) = nth_error (with_id id l) j).
    { intros j C. destruct (with_id id l) as [|a [|b r]]; [reflexivity| |reflexivity]. destruct C as [C| ->]; [cbn [length] in C; lia|reflexivity]. }
    assert (P : forall j, length (with_id id l) <> 1%nat \/ j = 0%nat ->
      dispatched_by name (dispatch_program main g) (multi_plain name) id (Some (Z.of_nat j)) (done (nth_error (with_id id l) j)) (match nth_error (with_id id l) j with Some _ => handle_text | None => default_text end) /\
      handled_as main (nth_error (with_id id l) j) (done (nth_error (with_id id l) j)) (match nth_error (with_id id l) j with Some _ => handle_text | None => default_text end)).
    { intros j C. specialize (X j). rewrite (Y j C) in X. split; [|apply X]. apply db_indexed; [apply X|apply NC]. }
    split.
    + do 2 eexists. split; [|apply (P 0%nat); now right]. apply (db_plain_on _ _ _ _ []); [intros; apply run_return|]. apply (P 0%nat). now right.
    + intros j [C|C]; [apply U in C; discriminate|]. do 2 eexists. apply P. exact C.
Qed.
Print Assumptions C58_dispatch_partial.

(** ** the enumeration of ids *)
Definition enumerator (q : list txt) (m : message) : txt := T "MsgId_" ++ join (T "_") (filter not_empty q ++ [capital (m_name m)]).
Lemma join_snoc sep l w : l <> [] -> join sep (l ++ [w]) = join sep l ++ sep ++ w.
Proof.
  induction l as [|a l IH]; [congruence|]. intros _. destruct l as [|b l]; [reflexivity|]. cbn [app] in *.
  change (join sep (a :: b :: l ++ [w])) with (a ++ sep ++ join sep (b :: l ++ [w])). rewrite IH by discriminate.
  change (join sep (a :: b :: l)) with (a ++ sep ++ join sep (b :: l)). now rewrite <- !app_assoc.
Qed.
Lemma join_nil sep l : sep <> [] -> Forall (fun w => w <> []) l -> join sep l = [] -> l = [].
Proof.
  intros S F E. destruct F as [|a l N F]; [reflexivity|]. exfalso. destruct l as [|b l]; [cbn in E; congruence|].
  change (join sep (a :: b :: l)) with (a ++ sep ++ join sep (b :: l)) in E. apply app_eq_nil in E as [E _]. congruence.
Qed.
Lemma full_ns q : q = [[]] \/ Forall valid q -> genFullNameFor (rev (map (fun k => (ENamespace, k)) q)) = join (T "_") (filter not_empty q).
Proof.
  intros [-> | F]; [reflexivity|]. induction q as [|k q IH] using rev_ind; [reflexivity|]. apply Forall_app in F as [F V]. inversion V as [|? ? V1 _]; subst.
  rewrite map_app, rev_app_distr. cbn [map rev app genFullNameFor]. rewrite IH by exact F. clear IH.
  assert (E : filter not_empty (q ++ [k]) = filter not_empty q ++ [k]) by (rewrite filter_app; cbn; now destruct k). rewrite E.
  assert (N : Forall (fun w : txt => w <> []) (filter not_empty q)) by (apply Forall_forall; intros w I; apply filter_In in I as [_ I]; now destruct w).
  destruct (filter not_empty q) as [|a r]; [reflexivity|]. rewrite join_snoc by discriminate.
  destruct (join (T "_") (a :: r)) eqn:J; [|reflexivity]. apply join_nil in J; [discriminate|discriminate|exact N].
Qed.
Lemma full_name q m : q = [[]] \/ Forall valid q -> q <> [] -> L "MsgId_" ++ genFullNameFor (parents_of q EMessage (m_name m)) = enumerator q m.
Proof.
  intros F Q. unfold parents_of. cbn [genFullNameFor]. rewrite (full_ns q F). unfold enumerator. f_equal.
  assert (N : Forall (fun w : txt => w <> []) (filter not_empty q)) by (apply Forall_forall; intros w I; apply filter_In in I as [_ I]; now destruct w).
  destruct (filter not_empty q) as [|a r]; [reflexivity|]. rewrite join_snoc by discriminate.
  destruct (join (T "_") (a :: r)) eqn:J; [|reflexivity]. apply join_nil in J; [discriminate|discriminate|exact N].
Qed.
Lemma max_fold l : forall a, a <= fold_left Z.max l a /\ Forall (fun x => x <= fold_left Z.max l a) l.
Proof.
  induction l as [|x l IH]; intro a; cbn [fold_left]; [split; [lia|constructor]|]. destruct (IH (Z.max a x)) as [A B]. split; [lia|]. constructor; [lia|exact B].
Qed.
(** the enumerators of the messages of a namespace (of one which has messages, or is not the global one), with their
    values; and the type of the enumeration holds them *)
Theorem C58_msg_ids : forall s sc path n all, in_protocol s sc path n -> (ns_name n <> [] \/ genGetAllMessages (around path) n <> []) ->
  exists l vs, listing sc path (fun _ _ => True) l /\ length vs = length l /\
    msg_ids all (around path) n = join (T "," ++ [nl]) (map (fun xv => enumerator (fst (fst xv)) (snd (fst xv)) ++ T " = " ++ snd xv) (combine l vs)) /\
    Forall2 (fun x v => constant v (m_id (snd x))) l vs /\
    (msg_id_type (genGetAllMessagesIdSorted (around path) n) = T "unsigned" /\ Forall (fun x => 0 <= m_id (snd x) < 2 ^ 32) l \/
     msg_id_type (genGetAllMessagesIdSorted (around path) n) = T "unsigned long long" /\ Forall (fun x => 0 <= m_id (snd x) < 2 ^ 64) l).
Proof.
  intros s sc path n all H NE. destruct (ip_facts _ _ _ _ H) as (O & On & pre & E & E').
  set (l := chosen path n check_all). assert (Li : listing sc path (fun _ _ => True) l) by (exact (all_listing _ _ _ _ H)).
  assert (S : genGetAllMessagesIdSorted (around path) n = map place l).
  { unfold l. rewrite E', E, <- chosen_sorted. clear. induction (genGetAllMessagesIdSorted (ns_path pre) n) as [|x r IH]; [reflexivity|]. cbn [filter check_all]. now rewrite <- IH. }
  exists l, (map (fun x => genNumToStringU (m_id (snd x)) 0) l). split; [exact Li|]. split; [apply map_length|].
  assert (G : forall x, In x l -> 0 <= m_id (snd x) < 2 ^ 64 /\ L "MsgId_" ++ genFullNameFor (fst (place x)) = enumerator (fst x) (snd x)).
  { intros [q m] I. destruct (listed_ok _ _ _ _ _ _ O Li I) as (Q & V & A). split; [now apply accepted_message_id|]. unfold place. cbn [fst snd]. apply full_name; [|exact Q].
    apply (proj2 (proj2 Li)) in I as (_ & (x & Ax & _) & _). destruct (path_cases _ _ _ O Ax) as [_ [[-> _]|(_ & F & _)]]; [now left|right; exact F]. }
  split; [|split].
  - unfold msg_ids. assert (C : is_nil (genGetAllMessagesIdSorted (around path) n) && is_nil (ns_name n) = false).
    { apply andb_false_iff. destruct NE as [N|N]; [right; destruct (ns_name n); [congruence|reflexivity]|left].
      destruct (genGetAllMessagesIdSorted (around path) n) eqn:Z; [|reflexivity]. exfalso. apply N. unfold genGetAllMessagesIdSorted in Z.
      pose proof (sort_perm (fun a b => msg_ltb (snd a) (snd b)) (genGetAllMessages (around path) n)) as Pm. rewrite Z in Pm. now apply Permutation.Permutation_nil in Pm. }
    rewrite C, S, map_map, list_join. f_equal. clear - G. induction l as [|x r IH]; [reflexivity|]. cbn [map combine fst snd]. f_equal; [|apply IH; intros y I; apply G; now right].
    destruct (G x) as [_ <-]; [now left|]. unfold place at 2. cbn [snd]. now rewrite <- app_assoc.
  - clear - G. induction l as [|x r IH]; constructor; [|apply IH; intros y I; apply G; now right]. destruct (G x) as [R _]; [now left|].
    apply C35_unsigned; lia.
  - unfold msg_id_type. rewrite S, map_map. destruct (max_fold (map (fun x => m_id (snd (place x))) l) 0) as [_ B]. rewrite Forall_map in B.
    change (2 ^ 32) with 4294967296 in *. destruct (_ <=? 4294967295) eqn:Q; [left|right]; (split; [reflexivity|]); rewrite Forall_forall in *; intros x I; destruct (G x I) as [R _]; [|exact R].
    specialize (B x I). unfold place in B, Q. cbn [snd] in B, Q. lia.
Qed.
Print Assumptions C58_msg_ids.

(** ** examples *)
Definition ex_fdoc_ok : list node :=
  [el "schema" [("name", "p"); ("nonUniqueMsgIdAllowed", "true")]
     [el "platform" [("name", "clientInput")] []; el "platform" [("name", "two")] [];
      el "ns" [("name", "n")]
        [el "message" [("name", "A"); ("id", "1"); ("order", "1"); ("sender", "client")] [];
         el "message" [("name", "B"); ("id", "1"); ("order", "0"); ("sender", "server"); ("platforms", "+two")] [];
         msg "c" "2";
         el "ns" [("name", "M")] [msg "A" "0"; msg "Other" "3"];
         el "message" [("name", "m_Other"); ("id", "4")] []]]].
Definition ex_fp : protocol := match validate false no_stod ex_fdoc_ok with Ok s => s | _ => new_protocol true no_stod end.
Definition ex_fsc : schema := nth 0 (pr_schemas ex_fp) no_schema.
Definition ex_fns : nspace := match ns_at [T "n"] (sc_ns ex_fsc) with Some n => n | None => empty_ns [] [] [] end.
Lemma ex_in_protocol : in_protocol ex_fp ex_fsc [T "n"] ex_fns.
Proof.
  split; [exists false, no_stod, ex_fdoc_ok; vm_compute; reflexivity|apply (nth_error_In _ 0); vm_compute; reflexivity|].
  constructor. apply (nth_error_In _ 0). vm_compute. reflexivity.
Qed.
Definition listed (p : option string) (t : target) : list (Z * txt) :=
  map (fun x => (m_id (snd x), message_class (T "p") (fst x) (snd x))) (chosen [T "n"] ex_fns (check_of (option_map T p) t)).
Example C58_ex_lists :
  listed None AllMsgs = [(0, T "p::n::M::message::A"); (1, T "p::n::message::B"); (1, T "p::n::message::A"); (2, T "p::n::message::C"); (3, T "p::n::M::message::Other"); (4, T "p::n::message::M_Other")] /\
  listed None ClientInput = [(0, T "p::n::M::message::A"); (1, T "p::n::message::B"); (2, T "p::n::message::C"); (3, T "p::n::M::message::Other"); (4, T "p::n::message::M_Other")] /\
  listed (Some "clientInput") AllMsgs = [(0, T "p::n::M::message::A"); (1, T "p::n::message::A"); (2, T "p::n::message::C"); (3, T "p::n::M::message::Other"); (4, T "p::n::message::M_Other")] /\
  listed (Some "two") ServerInput = [(0, T "p::n::M::message::A"); (1, T "p::n::message::A"); (2, T "p::n::message::C"); (3, T "p::n::M::message::Other"); (4, T "p::n::message::M_Other")].
Proof. vm_compute. auto. Qed.
(** the hypotheses of [C58_factory_partial] hold here, and the code is generated *)
Example C58_ex_hypotheses : Z.of_nat (length (chosen [T "n"] ex_fns check_all)) < 2 ^ 63 /\
  Forall (fun x => m_id (snd x) <> 2 ^ 63) (chosen [T "n"] ex_fns check_all) /\
  exists f, factory_of (T "p") (around [T "n"]) ex_fns check_all = Ok f /\ fa_unique f = false.
Proof.
  split; [vm_compute; reflexivity|]. split.
  - assert (B : forallb (fun x => negb (m_id (snd x) =? 2 ^ 63)) (chosen [T "n"] ex_fns check_all) = true) by (vm_compute; reflexivity).
    rewrite forallb_forall in B. apply Forall_forall. intros x I. specialize (B x I). lia.
  - eexists. split; [vm_compute; reflexivity|reflexivity].
Qed.

(** ** where the claims fail *)
(** an accepted message with the id 2^63: printing its negative value overflows, generating the factory is undefined *)
Definition ex_big_id : list node := [el "schema" [("name", "p")] [el "ns" [("name", "n")] [msg "A" "9223372036854775808"]]].
Definition ex_bp : protocol := match validate false no_stod ex_big_id with Ok s => s | _ => new_protocol true no_stod end.
Definition ex_bsc : schema := nth 0 (pr_schemas ex_bp) no_schema.
Definition ex_bns : nspace := match ns_at [T "n"] (sc_ns ex_bsc) with Some n => n | None => empty_ns [] [] [] end.
Theorem C58_id_refuted : exists s sc path n, in_protocol s sc path n /\
  factory_of (T "p") (around path) n check_all = UB /\ dispatch_of (T "p") [] (around path) n check_all = UB.
Proof.
  exists ex_bp, ex_bsc, [T "n"], ex_bns. split; [|split; vm_compute; reflexivity].
  split; [exists false, no_stod, ex_big_id; vm_compute; reflexivity|apply (nth_error_In _ 0); vm_compute; reflexivity|].
  constructor. apply (nth_error_In _ 0). vm_compute. reflexivity.
Qed.
Print Assumptions C58_id_refuted.
(** one message has the id 2, yet a dispatch to the second message with this id reaches it: other ids have several messages *)
Theorem C58_dispatch_index_refuted : exists s sc path n d prog l, in_protocol s sc path n /\ listing sc path (fun _ _ => True) l /\
  dispatch_of (T "p") [] (around path) n check_all = Ok d /\ tokens (di_with_idx d) = tokens (program_text prog) /\ Forall compiles prog /\
  nth_error (with_id 2 l) 1 = None /\
  exists x done, In x l /\ handled_as (T "p") (Some x) done (T "handler.handle(static_cast<MsgType&>(msg))") /\
    runs 2 1 prog done (Returned (T "handler.handle(static_cast<MsgType&>(msg))")).
Proof.
  pose proof ex_in_protocol as H. destruct (ip_facts _ _ _ _ H) as (O & On & _).
  exists ex_fp, ex_fsc, [T "n"], ex_fns.
  destruct C58_ex_hypotheses as (few & nub & _).
  pose proof (g_grouped [T "n"] ex_fns None AllMsgs) as G. pose proof (g_good _ _ _ _ H None AllMsgs nub) as K. pose proof (g_sizes _ _ _ _ H None AllMsgs few) as Z.
  pose proof (g_find _ _ _ _ H None AllMsgs) as F. cbn [check_of] in *.
  set (g := map_messages check_all (genGetAllMessagesIdSorted (around [T "n"]) ex_fns)) in *.
  destruct (dispatch_code_spec (T "p") g K) as (cs & out & Ec & Eo & To).
  destruct (multi_plain_spec []) as (o & Em & _).
  exists (mkDispatcher out o), (dispatch_program (T "p") g), (chosen [T "n"] ex_fns check_all).
  split; [exact H|]. split; [exact (all_listing _ _ _ _ H)|].
  split.
  { unfold dispatch_of. fold g. cbv zeta. rewrite Ec. cbn [bind]. rewrite Eo. cbn [bind].
    assert (D : dispatch_multiple g = true) by (vm_compute; reflexivity). rewrite D, Em. reflexivity. }
  split; [exact To|]. split; [now apply dispatch_compiles|]. split; [vm_compute; reflexivity|].
  assert (W : exists x, with_id 2 (chosen [T "n"] ex_fns check_all) = [x]) by (eexists; vm_compute; reflexivity). destruct W as [x W].
  assert (I : In x (chosen [T "n"] ex_fns check_all)) by (apply (with_id_In 2); rewrite W; left; reflexivity).
  exists x, [interface_text; msg_type (T "p") x]. split; [exact I|]. split; [split; [exists [interface_text]; exact eq_refl|exact eq_refl]|].
  pose proof (dispatch_runs (T "p") g 2 1 G K Z ltac:(lia)) as X. rewrite F, W in X. cbn [map dispatched] in X.
  destruct x as [q m]. assert (Li : listing ex_fsc [T "n"] (fun _ _ => True) (chosen [T "n"] ex_fns check_all)) by exact (all_listing _ _ _ _ H).
  destruct (listed_ok _ _ _ _ _ _ O Li I) as (Q & V & _). unfold using_text in X. rewrite class_scope in X; [exact X|discriminate|exact Q|exact V].
Qed.
Print Assumptions C58_dispatch_index_refuted.
(** two different messages with the same enumerator, and two with the same name of their alias *)
Theorem C58_names_refuted : exists s sc path n l a b, in_protocol s sc path n /\ listing sc path (fun _ _ => True) l /\ In a l /\ In b l /\ a <> b /\
  enumerator (fst a) (snd a) = enumerator (fst b) (snd b) /\ ~ NoDup (alias_names (around path) n check_all).
Proof.
  pose proof ex_in_protocol as H. destruct (ip_facts _ _ _ _ H) as (O & On & _).
  exists ex_fp, ex_fsc, [T "n"], ex_fns, (chosen [T "n"] ex_fns check_all).
  assert (W : exists a b, nth_error (chosen [T "n"] ex_fns check_all) 4 = Some a /\ nth_error (chosen [T "n"] ex_fns check_all) 5 = Some b /\ fst a <> fst b /\
     enumerator (fst a) (snd a) = enumerator (fst b) (snd b)).
  { do 2 eexists. split; [vm_compute; reflexivity|]. split; [vm_compute; reflexivity|]. split; [discriminate|vm_compute; reflexivity]. }
  destruct W as (a & b & A & B & D & E). exists a, b. split; [exact H|].
  split; [exact (all_listing _ _ _ _ H)|].
  split; [exact (nth_error_In _ _ A)|]. split; [exact (nth_error_In _ _ B)|]. split; [congruence|]. split; [exact E|].
  vm_compute. intro N. inversion N as [|? ? N1 _]; subst. apply N1. vm_compute. auto.
Qed.
Print Assumptions C58_names_refuted.
(** with a platform "clientInput" two different lists of messages have the same header *)
Theorem C58_headers_refuted : exists s sc path n p, in_protocol s sc path n /\ In p (sc_platforms sc) /\
  input_name (Some p) AllMsgs = input_name None ClientInput /\
  input_list (T "p") (around path) n (check_of (Some p) AllMsgs) <> input_list (T "p") (around path) n (check_of None ClientInput).
Proof.
  exists ex_fp, ex_fsc, [T "n"], ex_fns, (T "clientInput"). split; [exact ex_in_protocol|]. split; [apply (nth_error_In _ 0); vm_compute; reflexivity|].
  split; [reflexivity|]. vm_compute. discriminate.
Qed.
Print Assumptions C58_headers_refuted.
