(** C65: for which messages and interfaces the generator produces code. *)
From Coq Require Import Lia.
From Verif.Model Require Import Base Common Xml Units Field FieldCommon IntField EnumField SetField FloatField OptCond Composite Message Frame Protocol GenUtil GenComms CommsFactory GenSelect.
From Verif.Spec Require Import Texts IntSpec XmlSpec FieldSpec ProtocolSpec NameSpec FactorySpec CmdSpec SelectSpec Ex.
From Verif.Proofs Require Import BaseFacts CommonFacts RangeFacts XmlFacts IntInv EnumInv FieldInv MapFacts ProtocolFacts RefFacts CmdFacts FactoryFacts SelectFacts.
From Verif.Props Require Import ExProtocol PMessages PLookup.
Local Open Scope string_scope. Local Open Scope Z_scope. Local Open Scope list_scope.

Lemma ok_inj {A} (x y : A) : Ok x = Ok y -> x = y.
Proof. now intros [= ->]. Qed.
(** a line of the list of messages, or the interface asked for, is read in the last schema *)
Definition is_message (s : protocol) (line : txt) (i : nat) (path : list txt) (m : message) : Prop :=
  exists sc, nth_error (pr_schemas s) i = Some sc /\ message_at sc path m /\ names_place (pr_schemas s) (last_schema (pr_schemas s)) line i path (m_name m).
Definition is_interface (s : protocol) (text : txt) (i : nat) (path : list txt) (x : iface) : Prop :=
  exists sc, nth_error (pr_schemas s) i = Some sc /\ iface_at sc path x /\ names_place (pr_schemas s) (last_schema (pr_schemas s)) text i path (if_name x).
(** the interface asked for exists, or none is asked for *)
Definition interface_known (s : protocol) (o : gen_options) : Prop :=
  go_iface o = [] \/ exists i path x, is_interface s (go_iface o) i path x.

Lemma iface_found multi stod docs s text i path x : validate multi stod docs = Ok s ->
  genFindInterface (pr_schemas s) (last_schema (pr_schemas s)) text = Some (i, path, x) <-> is_interface s text i path x.
Proof. intros H. apply (C66_interface_only _ _ _ _ _ _ _ _ _ H). Qed.
Lemma message_found multi stod docs s text i path x : validate multi stod docs = Ok s ->
  genGindMessage (pr_schemas s) (last_schema (pr_schemas s)) text = Some (i, path, x) <-> is_message s text i path x.
Proof. intros H. apply (C66_message_only _ _ _ _ _ _ _ _ _ H). Qed.
Lemma known_ok multi stod docs s o : validate multi stod docs = Ok s -> interface_known s o <-> exists l, reference_interfaces (pr_schemas s) o = Ok l.
Proof.
  intros H. unfold interface_known, reference_interfaces. split.
  - intros [E|(i & path & x & X)]; [rewrite E; cbn; eauto|]. apply (iface_found _ _ _ _ _ _ _ _ H) in X. rewrite X. destruct (is_nil (go_iface o)); eauto.
  - intros [l E]. destruct (go_iface o) as [|c r]; [now left|]. cbn [is_nil] in E. right.
    destruct (genFindInterface _ _ _) as [[[i p] x]|] eqn:F; [|discriminate]. apply (iface_found _ _ _ _ _ _ _ _ H) in F. eauto.
Qed.
Lemma messages_ok multi stod docs s o marks : validate multi stod docs = Ok s -> interface_known s o ->
  reference_messages (pr_schemas s) o = marks -> generated_messages (pr_schemas s) o = (l <- marks ;; Ok (written_messages (pr_schemas s) l)).
Proof. intros H K <-. apply (known_ok _ _ _ _ _ H) in K as [l E]. unfold generated_messages. now rewrite E. Qed.

(** ** Messages *)
(** whatever the options, code is generated only for messages which are defined *)
Theorem C65_only : forall multi stod docs s o l i g, validate multi stod docs = Ok s -> generated_messages (pr_schemas s) o = Ok l -> In (i, g) l ->
  exists sc path m, nth_error (pr_schemas s) i = Some sc /\ message_at sc path m /\ g = ((EMessage, m_name m) :: rev (map (fun k => (ENamespace, k)) path), m).
Proof.
  intros multi stod docs s o l i g H G I. pose proof (validate_ok _ _ _ _ H) as P.
  unfold generated_messages in G. apply bind_Ok in G as (x & _ & G). apply bind_Ok in G as (marks & _ & G). apply ok_inj in G as <-.
  unfold written_messages in I. rewrite (in_numbered (fun i sc => map (pair i) (filter (fun m => existsb (place_eqb (place_of i m)) marks) (schema_messages sc)))) in I.
  destruct I as (j & sc & J & I). apply in_map_iff in I as (y & [= -> ->] & I). apply filter_In in I as [I _].
  apply schema_messages_In in I as (path & m & M & ->).
  - exists sc, path, m. split; [exact J|]. split; [exact M|reflexivity].
  - unfold proto_ok in P. rewrite Forall_forall in P. apply P. eapply nth_error_In. exact J.
Qed.
Print Assumptions C65_only.

(** Without a list of messages and without a platform code is generated for the messages of the namespaces which are not inside
    others; the full claim is that code is generated for every message (see C65_nested_refuted). *)
Theorem C65_default_partial : forall multi stod docs s o, validate multi stod docs = Ok s -> interface_known s o ->
  fst (go_list o) = [] -> go_platform o = [] -> exists l, generated_messages (pr_schemas s) o = Ok l /\
  forall i sc path m, nth_error (pr_schemas s) i = Some sc -> message_at sc path m -> (generated l i path m <-> exists k, path = [k]).
Proof.
  intros multi stod docs s o H K E1 E2. pose proof (validate_ok _ _ _ _ H) as P.
  eexists. split.
  - rewrite (messages_ok _ _ _ _ o (Ok (mark_all m_name ns_messages_list (pr_schemas s))) H K); [reflexivity|].
    unfold reference_messages. rewrite E1, E2. reflexivity.
  - intros i sc path m J M. rewrite (written_In s _ i sc path m P J M), mark_all_In.
    assert (O : nss_ok (sc_ns sc)) by (unfold proto_ok in P; rewrite Forall_forall in P; apply P; eapply nth_error_In; exact J).
    rewrite <- (top_iff sc path m O M). split.
    + intros (sc' & k & n & x & J' & R). rewrite J in J'. injection J' as <-. eauto.
    + intros (k & n & x & R). exists sc, k, n, x. auto.
Qed.
Print Assumptions C65_default_partial.

(** With a list of messages: its lines are separated by end of line characters, empty ones count for nothing; the list is
    accepted exactly if each line names a message, and code is generated for exactly the messages named. *)
Theorem C65_listed : forall multi stod docs s o text lines, validate multi stod docs = Ok s -> interface_known s o ->
  fst (go_list o) <> [] -> go_platform o = [] -> snd (go_list o) = Some text -> tokens [nl; chr 13] text lines ->
  ((exists l, generated_messages (pr_schemas s) o = Ok l) <-> forall line, In line lines -> exists i path m, is_message s line i path m) /\
  (forall l, generated_messages (pr_schemas s) o = Ok l -> forall i sc path m, nth_error (pr_schemas s) i = Some sc -> message_at sc path m ->
     (generated l i path m <-> exists line, In line lines /\ is_message s line i path m)).
Proof.
  intros multi stod docs s o text lines H K E1 E2 E3 Tk. pose proof (validate_ok _ _ _ _ H) as P. apply split_any_iff in Tk.
  set (f := fun l => match genGindMessage (pr_schemas s) (last_schema (pr_schemas s)) l with Some (i, p, x) => Ok (i, p, m_name x) | None => Err end).
  assert (R : reference_messages (pr_schemas s) o = mapM f lines).
  { unfold reference_messages. rewrite E2. destruct (fst (go_list o)) as [|c r]; [congruence|]. cbn [is_nil negb andb]. unfold reference_listed. rewrite E3, Tk. reflexivity. }
  rewrite (messages_ok _ _ _ _ o _ H K R). clear R. split.
  - split.
    + intros (l & G) line I. apply bind_Ok in G as (marks & G & _). destruct (mapM_In_fwd _ _ _ _ G I) as (y & _ & G2). clear G; rename G2 into G. unfold f in G.
      destruct (genGindMessage _ _ line) as [[[i p] x]|] eqn:F; [|discriminate]. apply (message_found _ _ _ _ _ _ _ _ H) in F. eauto.
    + intros A. assert (exists marks, mapM f lines = Ok marks) as (marks & ->); [|cbn; eauto]. clear Tk. induction lines as [|line lines IH]; [cbn; eauto|].
      destruct IH as (marks & E); [intros; apply A; now right|]. destruct (A line) as (i & p & m & M); [now left|]. apply (message_found _ _ _ _ _ _ _ _ H) in M.
      cbn [mapM]. unfold f at 1. rewrite M. cbn [bind]. rewrite E. cbn [bind]. eauto.
  - intros l G i sc path m J M. apply bind_Ok in G as (marks & G & L). apply ok_inj in L as <-. rewrite (written_In s _ i sc path m P J M). split.
    + intro I. destruct (mapM_In _ _ _ _ G I) as (line & L & G2). clear G; rename G2 into G. exists line. split; [exact L|]. unfold f in G.
      destruct (genGindMessage _ _ line) as [[[j p] x]|] eqn:F; [|discriminate]. apply ok_inj in G. injection G as -> -> E.
      apply (message_found _ _ _ _ _ _ _ _ H) in F as (sc' & J' & M' & Nm). exists sc. split; [exact J|]. split; [exact M|]. rewrite <- E. exact Nm.
    + intros (line & I & N). apply (message_found _ _ _ _ _ _ _ _ H) in N. destruct (mapM_In_fwd _ _ _ _ G I) as (y & Y & G2). clear G; rename G2 into G. unfold f in G. rewrite N in G.
      apply ok_inj in G as <-. exact Y.
Qed.
Print Assumptions C65_listed.
(** a list which cannot be read is refused, and so is a list together with a platform, and an interface which does not exist *)
Theorem C65_refused : forall multi stod docs s o, validate multi stod docs = Ok s ->
  (fst (go_list o) <> [] -> go_platform o = [] -> snd (go_list o) = None -> generated_messages (pr_schemas s) o = Err) /\
  (fst (go_list o) <> [] -> go_platform o <> [] -> generated_messages (pr_schemas s) o = Err) /\
  (~ interface_known s o -> generated_messages (pr_schemas s) o = Err).
Proof.
  intros multi stod docs s o H.
  assert (A : reference_interfaces (pr_schemas s) o = Err \/ exists l, reference_interfaces (pr_schemas s) o = Ok l).
  { unfold reference_interfaces. destruct (is_nil (go_iface o)); [eauto|]. destruct (genFindInterface _ _ _) as [[[i p] x]|]; eauto. }
  assert (B : forall r, reference_messages (pr_schemas s) o = r -> r = Err -> generated_messages (pr_schemas s) o = Err).
  { intros r R ->. unfold generated_messages. destruct A as [->|[l ->]]; [reflexivity|]. cbn [bind]. now rewrite R. }
  split; [|split].
  - intros E1 E2 E3. eapply B; [reflexivity|]. unfold reference_messages. rewrite E2. destruct (fst (go_list o)); [congruence|]. cbn [is_nil negb andb]. unfold reference_listed. now rewrite E3.
  - intros E1 E2. eapply B; [reflexivity|]. unfold reference_messages. destruct (fst (go_list o)); [congruence|]. destruct (go_platform o); [congruence|]. reflexivity.
  - intro N. destruct A as [E|E].
    + unfold generated_messages. now rewrite E.
    + destruct N. now apply (known_ok _ _ _ _ _ H).
Qed.
Print Assumptions C65_refused.

(** With a platform: code is generated for the messages of that platform (and those without any) in the schemas which declare it. *)
Theorem C65_platform : forall multi stod docs s o p, validate multi stod docs = Ok s -> interface_known s o ->
  fst (go_list o) = [] -> go_platform o = p -> p <> [] ->
  ((exists l, generated_messages (pr_schemas s) o = Ok l) <-> exists sc path m, In sc (pr_schemas s) /\ In p (sc_platforms sc) /\ message_at sc path m) /\
  (forall l, generated_messages (pr_schemas s) o = Ok l -> forall i sc path m, nth_error (pr_schemas s) i = Some sc -> message_at sc path m ->
     (generated l i path m <-> In p (sc_platforms sc) /\ on_platform (Some p) m)).
Proof.
  intros multi stod docs s o p H K E1 <- Np. pose proof (validate_ok _ _ _ _ H) as P. set (p := go_platform o) in *.
  assert (OK : forall sc, In sc (pr_schemas s) -> nss_ok (sc_ns sc)) by (unfold proto_ok in P; rewrite Forall_forall in P; exact P).
  assert (R : reference_messages (pr_schemas s) o = reference_platform (pr_schemas s) p).
  { unfold reference_messages. fold p. rewrite E1. destruct p; [congruence|]. reflexivity. }
  rewrite (messages_ok _ _ _ _ o _ H K R). clear R. unfold reference_platform.
  assert (Kn : existsb (fun sc => mem_str p (sc_platforms sc) && negb (is_nil (schema_messages sc))) (pr_schemas s) = true <->
     exists sc path m, In sc (pr_schemas s) /\ In p (sc_platforms sc) /\ message_at sc path m).
  { rewrite existsb_exists. split.
    - intros (sc & I & E). apply andb_prop in E as [E F]. apply mem_str_In in E. destruct (schema_messages sc) as [|x r] eqn:G; [discriminate|].
      assert (X : In x (schema_messages sc)) by (rewrite G; now left). apply schema_messages_In in X as (path & m & M & _); [|now apply OK]. eauto 6.
    - intros (sc & path & m & I & Q & M). exists sc. split; [exact I|]. apply andb_true_intro. split; [now apply mem_str_In|].
      assert (X : In (place (path, m)) (schema_messages sc)) by (apply schema_messages_In; [now apply OK|eauto]). destruct (schema_messages sc); [destruct X|reflexivity]. }
  destruct (existsb _ (pr_schemas s)); cbn [bind].
  - split; [split; [intros _; now apply Kn|eauto]|]. intros l L i sc path m J M. apply ok_inj in L as <-. rewrite (written_In s _ i sc path m P J M).
    rewrite (in_numbered (fun i sc => if mem_str p (sc_platforms sc) then map (place_of i) (filter (check_platform p) (schema_messages sc)) else [])).
    assert (Sc : nss_ok (sc_ns sc)) by (apply OK; eapply nth_error_In; exact J).
    assert (C : forall q x, check_platform p (place (q, x)) = true <-> on_platform (Some p) x).
    { intros q x. unfold check_platform, place, on_platform. cbn [snd]. destruct (m_platforms x) as [|a b]; [tauto|]. rewrite mem_str_In. split; [auto|]. intros [[=]|X]; exact X. }
    split.
    + intros (j & sc' & J' & I). destruct (mem_str p (sc_platforms sc')) eqn:E; [|destruct I]. apply mem_str_In in E.
      apply in_map_iff in I as (x & Q & I). apply filter_In in I as [I F]. apply schema_messages_In in I as (q & y & Y & ->); [|apply OK; eapply nth_error_In; exact J'].
      rewrite place_place in Q. cbn [fst snd] in Q. injection Q as -> -> Nm. rewrite J in J'. injection J' as <-. split; [exact E|]. apply C in F.
      assert (y = m) as <-; [|exact F].
      destruct (C66_message_found _ _ _ _ _ _ _ _ H J Y) as [_ A]. destruct (C66_message_found _ _ _ _ _ _ _ _ H J M) as [_ B]. rewrite Nm, B in A. now injection A.
    + intros [E F]. exists i, sc. split; [exact J|]. apply mem_str_In in E. rewrite E. apply in_map_iff. exists (place (path, m)). split; [apply place_place|].
      apply filter_In. split; [apply schema_messages_In; eauto|now apply C].
  - split; [|intros l; discriminate]. split; [intros [l G]; discriminate|]. intro X. apply Kn in X. discriminate.
Qed.
Print Assumptions C65_platform.

(** ** Interfaces *)
Definition written (l : list (nat * (list txt * iface))) (i : nat) (path : list txt) (x : iface) : Prop := In (i, (path, x)) l.
Lemma ifaces_written multi stod docs s o marks l i sc path x : validate multi stod docs = Ok s -> reference_interfaces (pr_schemas s) o = Ok marks ->
  generated_interfaces (pr_schemas s) o = Ok l -> nth_error (pr_schemas s) i = Some sc -> iface_at sc path x ->
  (written l i path x <-> In (i, path, if_name x) marks).
Proof.
  intros H Rm G J X. pose proof (validate_ok _ _ _ _ H) as P. unfold generated_interfaces in G. rewrite Rm in G. cbn [bind] in G. apply bind_Ok in G as (? & _ & G). apply ok_inj in G as <-.
  unfold written. rewrite (in_numbered (fun i sc => map (pair i) (filter (fun x => existsb (place_eqb (i, fst x, if_name (snd x))) marks) (schema_interfaces sc)))). split.
  - intros (j & sc' & J' & I). apply in_map_iff in I as (y & [= -> ->] & I). apply filter_In in I as [_ I]. apply existsb_exists in I as (z & I & E).
    apply place_eqb_iff in E as <-. exact I.
  - intros I. exists i, sc. split; [exact J|]. apply in_map. apply filter_In. split.
    + apply schema_interfaces_In; [|exact X]. unfold proto_ok in P. rewrite Forall_forall in P. apply P. eapply nth_error_In. exact J.
    + apply existsb_exists. eexists. split; [exact I|]. now apply place_eqb_iff.
Qed.
(** The options are accepted for interfaces exactly if they are for messages, and code is generated only for interfaces which are defined. *)
Theorem C65_interface_only : forall multi stod docs s o, validate multi stod docs = Ok s ->
  ((exists l, generated_interfaces (pr_schemas s) o = Ok l) <-> exists l, generated_messages (pr_schemas s) o = Ok l) /\
  forall l i path x, generated_interfaces (pr_schemas s) o = Ok l -> written l i path x -> exists sc, nth_error (pr_schemas s) i = Some sc /\ iface_at sc path x.
Proof.
  intros multi stod docs s o H. pose proof (validate_ok _ _ _ _ H) as P. split.
  - unfold generated_interfaces, generated_messages. split; intros (l & G); apply bind_Ok in G as (a & -> & G); apply bind_Ok in G as (b & -> & G); cbn [bind]; eauto.
  - intros l i path x G W. unfold generated_interfaces in G. apply bind_Ok in G as (marks & _ & G). apply bind_Ok in G as (? & _ & G). apply ok_inj in G as <-.
    unfold written in W. rewrite (in_numbered (fun i sc => map (pair i) (filter (fun x => existsb (place_eqb (i, fst x, if_name (snd x))) marks) (schema_interfaces sc)))) in W.
    destruct W as (j & sc & J & I). apply in_map_iff in I as (y & [= -> ->] & I). apply filter_In in I as [I _]. exists sc. split; [exact J|].
    apply schema_interfaces_In; [|exact I]. unfold proto_ok in P. rewrite Forall_forall in P. apply P. eapply nth_error_In. exact J.
Qed.
Print Assumptions C65_interface_only.
(** If an interface is asked for, code is generated for this one and no other. *)
Theorem C65_interface_forced : forall multi stod docs s o l, validate multi stod docs = Ok s -> go_iface o <> [] -> generated_interfaces (pr_schemas s) o = Ok l ->
  (exists i path x, is_interface s (go_iface o) i path x) /\
  forall i sc path x, nth_error (pr_schemas s) i = Some sc -> iface_at sc path x -> (written l i path x <-> is_interface s (go_iface o) i path x).
Proof.
  intros multi stod docs s o l H Ne G. pose proof G as G'. unfold generated_interfaces in G'. apply bind_Ok in G' as (marks & Rm & _). pose proof Rm as Rm'.
  unfold reference_interfaces in Rm'. destruct (go_iface o) as [|c r] eqn:E; [congruence|]. rewrite <- E in *. rewrite E in Rm' at 1. cbn [is_nil] in Rm'.
  destruct (genFindInterface _ _ _) as [[[j q] y]|] eqn:F; [|discriminate]. apply ok_inj in Rm' as <-. pose proof F as F'. apply (iface_found _ _ _ _ _ _ _ _ H) in F'.
  split; [eauto|]. intros i sc path x J X. rewrite (ifaces_written _ _ _ _ _ _ _ _ _ _ _ H Rm G J X). cbn [In]. split.
  - intros [[= -> -> Nm]|[]]. destruct F' as (sc' & J' & M' & Np). exists sc. split; [exact J|]. split; [exact X|]. rewrite <- Nm. exact Np.
  - intro I. apply (iface_found _ _ _ _ _ _ _ _ H) in I. rewrite F in I. injection I as -> -> ->. now left.
Qed.
Print Assumptions C65_interface_forced.
(** If none is asked for: those of the namespaces which are not inside others (the full claim: all of them). *)
Theorem C65_interface_default_partial : forall multi stod docs s o l, validate multi stod docs = Ok s -> go_iface o = [] -> generated_interfaces (pr_schemas s) o = Ok l ->
  forall i sc path x, nth_error (pr_schemas s) i = Some sc -> iface_at sc path x -> (written l i path x <-> exists k, path = [k]).
Proof.
  intros multi stod docs s o l H E G i sc path x J X. pose proof (validate_ok _ _ _ _ H) as P.
  assert (Rm : reference_interfaces (pr_schemas s) o = Ok (mark_all if_name ns_ifaces_list (pr_schemas s))) by (unfold reference_interfaces; now rewrite E).
  rewrite (ifaces_written _ _ _ _ _ _ _ _ _ _ _ H Rm G J X), mark_all_In. split; [intros (? & ? & n & ? & _ & _ & -> & _); eauto|]. intros [k ->].
  destruct X as (n & At & I). assert (O : nss_ok (sc_ns sc)) by (unfold proto_ok in P; rewrite Forall_forall in P; apply P; eapply nth_error_In; exact J).
  destruct O as [S N R]. inversion At as [? ? ? K|? ? ? ? ? K A]; subst; [|inversion A]. exists sc, k, n, x. destruct (N _ _ K) as [-> _]. auto.
Qed.
Print Assumptions C65_interface_default_partial.

(** ** A protocol with messages and interfaces in a namespace n and in the namespace m inside it *)
Definition ex_sel_doc : node :=
  el "schema" [("name", "s")]
    [el "platforms" [] [el "platform" [("name", "P1")] []; el "platform" [("name", "P2")] []];
     el "ns" [("name", "n")]
       [el "message" [("name", "A"); ("id", "1"); ("platforms", "+P1")] []; msg "B" "2"; el "interface" [("name", "I")] [];
        el "ns" [("name", "m")] [msg "C" "0"; el "interface" [("name", "J")] []]]].
Definition ex_other : node := el "schema" [("name", "t")] [el "ns" [("name", "k")] [msg "D" "3"]].
Definition ex_sel : protocol := match validate true no_stod [ex_sel_doc; ex_other] with Ok s => s | _ => new_protocol true no_stod end.
Lemma ex_sel_ok : validate true no_stod [ex_sel_doc; ex_other] = Ok ex_sel.
Proof. vm_compute. reflexivity. Qed.
Definition names_of (r : res (list (nat * gen_message))) : res (list (nat * txt)) :=
  match r with Ok l => Ok (map (fun x => (fst x, m_name (snd (snd x)))) l) | Err => Err | UB => UB end.
Definition ifaces_of (r : res (list (nat * (list txt * iface)))) : res (list (nat * txt)) :=
  match r with Ok l => Ok (map (fun x => (fst x, if_name (snd (snd x)))) l) | Err => Err | UB => UB end.
Definition default_options : gen_options := mkGO ([], None) [] [].
Definition list_options (text : txt) : gen_options := mkGO (T "file", Some text) [] [].
(** the default; a list (with an empty line, the schema written or not, one message twice); a list with an unknown message; a list which
    cannot be read; a platform; an unknown platform; one declared but not by the schema of the message *)
Example C65_ex : let gen o := names_of (generated_messages (pr_schemas ex_sel) o) in
  gen default_options = Ok [(0%nat, T "A"); (0%nat, T "B"); (1%nat, T "D")] /\
  gen (list_options (T "@s.n.A" ++ [nl; nl] ++ T "k.D" ++ [chr 13; nl] ++ T "@s.n.m.C" ++ [nl] ++ T "@t.k.D")) = Ok [(0%nat, T "C"); (0%nat, T "A"); (1%nat, T "D")] /\
  gen (list_options (T "@s.n.A" ++ [nl] ++ T "n.B")) = Err /\
  gen (mkGO (T "file", None) [] []) = Err /\
  gen (mkGO ([], None) (T "P1") []) = Ok [(0%nat, T "C"); (0%nat, T "A"); (0%nat, T "B")] /\
  gen (mkGO ([], None) (T "P2") []) = Ok [(0%nat, T "C"); (0%nat, T "B")] /\
  gen (mkGO ([], None) (T "P3") []) = Err /\
  gen (mkGO (T "file", Some (T "k.D")) (T "P1") []) = Err /\
  gen (mkGO ([], None) [] (T "@s.n.I")) = gen default_options /\ gen (mkGO ([], None) [] (T "I")) = Err.
Proof. vm_compute. repeat split; reflexivity. Qed.
Example C65_ex_interfaces : let gen o := ifaces_of (generated_interfaces (pr_schemas ex_sel) o) in
  gen default_options = Ok [(0%nat, T "I")] /\ gen (mkGO ([], None) [] (T "@s.n.m.J")) = Ok [(0%nat, T "J")] /\ gen (mkGO ([], None) [] (T "J")) = Err.
Proof. vm_compute. repeat split; reflexivity. Qed.
(** the hypotheses of the theorems: the tokens of the list, the interface asked for, a message inside m *)
Lemma ex_at : exists sc m1 n2 c, nth_error (pr_schemas ex_sel) 0 = Some sc /\ In (T "n", m1) (sc_ns sc) /\ In (T "m", n2) (ns_subs m1) /\
  In c (ns_messages_list n2) /\ m_name c = T "C" /\ In (T "P1") (sc_platforms sc).
Proof.
  exists (nth 0 (pr_schemas ex_sel) no_schema), (snd (nth 0 (sc_ns (nth 0 (pr_schemas ex_sel) no_schema)) ([], empty_ns [] [] []))),
   (snd (nth 0 (ns_subs (snd (nth 0 (sc_ns (nth 0 (pr_schemas ex_sel) no_schema)) ([], empty_ns [] [] [])))) ([], empty_ns [] [] []))).
  eexists. split; [vm_compute; reflexivity|]. split; [apply (nth_error_In _ 0); vm_compute; reflexivity|]. split; [apply (nth_error_In _ 0); vm_compute; reflexivity|].
  split; [apply (nth_error_In _ 0); vm_compute; reflexivity|]. split; [vm_compute; reflexivity|apply (nth_error_In _ 0); vm_compute; reflexivity].
Qed.
Example C65_ex_hyps : tokens [nl; chr 13] (T "@s.n.A" ++ [nl; nl] ++ T "k.D") [T "@s.n.A"; T "k.D"] /\ interface_known ex_sel default_options /\
  exists sc c, nth_error (pr_schemas ex_sel) 0 = Some sc /\ message_at sc [T "n"; T "m"] c /\ is_message ex_sel (T "@s.n.m.C") 0 [T "n"; T "m"] c.
Proof.
  split; [|split].
  - apply split_any_iff. vm_compute. reflexivity.
  - now left.
  - destruct ex_at as (sc & n1 & n2 & c & J & I1 & I2 & I3 & Nc & _). exists sc, c. split; [exact J|].
    assert (M : message_at sc [T "n"; T "m"] c) by (exists n2; split; [apply na_sub with n1; [exact I1|now constructor]|exact I3]).
    split; [exact M|]. exists sc. split; [exact J|]. split; [exact M|]. rewrite Nc. exists (T "n.m.C"). split; [left; vm_compute; reflexivity|].
    right. exists sc. split; [exact J|]. assert (nth_error (pr_schemas ex_sel) 0 = Some (nth 0 (pr_schemas ex_sel) no_schema)) as Q by (vm_compute; reflexivity).
    rewrite Q in J. injection J as <-. vm_compute. reflexivity.
Qed.

(** No code is generated for the message C inside n.m although nothing asks for less than everything ... *)
Theorem C65_nested_refuted : ~ (forall multi stod docs s i sc path m, validate multi stod docs = Ok s -> nth_error (pr_schemas s) i = Some sc -> message_at sc path m ->
  exists l, generated_messages (pr_schemas s) default_options = Ok l /\ generated l i path m).
Proof.
  intros H. destruct C65_ex_hyps as (_ & K & sc & c & J & M & _).
  destruct (H true no_stod _ ex_sel 0%nat sc _ c ex_sel_ok J M) as (l & G & In1).
  destruct (C65_default_partial true no_stod _ ex_sel default_options ex_sel_ok K eq_refl eq_refl) as (l' & G' & D).
  rewrite G in G'. apply ok_inj in G' as <-. apply (D _ _ _ _ J M) in In1 as [k E]. discriminate.
Qed.
Print Assumptions C65_nested_refuted.
(** ... while the generated header with the list of all the messages of the protocol includes its header. *)
Theorem C65_included_refuted : ~ (forall multi stod docs s sc k n h, validate multi stod docs = Ok s -> In sc (pr_schemas s) -> In (k, n) (sc_ns sc) ->
  In h (input_headers (T "main") [] n check_all) ->
  exists l i g, generated_messages (pr_schemas s) default_options = Ok l /\ In (i, g) l /\ h = genRelHeaderPathFor (T "main") (fst g)).
Proof.
  intros H. destruct (H true no_stod _ ex_sel (nth 0 (pr_schemas ex_sel) no_schema) (T "n") (snd (nth 0 (sc_ns (nth 0 (pr_schemas ex_sel) no_schema)) ([], empty_ns [] [] [])))
    (T "main/n/m/message/C.h") ex_sel_ok) as (l & i & g & G & I & E).
  - apply (nth_error_In _ 0). vm_compute. reflexivity.
  - apply (nth_error_In _ 0). vm_compute. reflexivity.
  - apply (nth_error_In _ 0). vm_compute. reflexivity.
  - assert (F : forallb (fun x => negb (str_eqb (T "main/n/m/message/C.h") (genRelHeaderPathFor (T "main") (fst (snd x))))) (match generated_messages (pr_schemas ex_sel) default_options with Ok l => l | _ => [] end) = true)
      by (vm_compute; reflexivity).
    rewrite G in F. rewrite forallb_forall in F. specialize (F _ I). cbn [snd] in F. rewrite <- E, str_eqb_refl in F. discriminate.
Qed.
Print Assumptions C65_included_refuted.
(** The same for interfaces: a protocol whose only interface is inside n.m has no interface at all, for none is added either. *)
Definition ex_deep : list node := [el "schema" [("name", "s")] [el "ns" [("name", "n")] [msg "A" "1"; el "ns" [("name", "m")] [el "interface" [("name", "J")] []]]]].
Theorem C65_no_interface_refuted : ~ (forall multi stod docs s l, validate multi stod docs = Ok s -> pr_schemas s <> [] ->
  generated_interfaces (pr_schemas s) default_options = Ok l -> l <> [] \/ default_interface (pr_schemas s) = true).
Proof.
  intros H. assert (V : exists s, validate false no_stod ex_deep = Ok s /\ pr_schemas s <> [] /\ generated_interfaces (pr_schemas s) default_options = Ok [] /\ default_interface (pr_schemas s) = false).
  { eexists. split; [vm_compute; reflexivity|]. split; [discriminate|]. split; vm_compute; reflexivity. }
  destruct V as (s & V & N & G & D). destruct (H _ _ _ _ _ V N G) as [X|X]; [congruence|]. rewrite D in X. discriminate.
Qed.
Print Assumptions C65_no_interface_refuted.
(** A platform of a schema without messages is refused although it is declared. *)
Theorem C65_declared_refuted : ~ (forall multi stod docs s sc p, validate multi stod docs = Ok s -> In sc (pr_schemas s) -> In p (sc_platforms sc) ->
  generated_messages (pr_schemas s) (mkGO ([], None) p []) <> Err).
Proof.
  intros H. assert (V : exists s sc, validate false no_stod [el "schema" [("name", "s")] [el "platforms" [] [el "platform" [("name", "P1")] []]]] = Ok s /\ In sc (pr_schemas s) /\
    In (T "P1") (sc_platforms sc) /\ generated_messages (pr_schemas s) (mkGO ([], None) (T "P1") []) = Err).
  { eexists _, _. split; [vm_compute; reflexivity|]. split; [left; reflexivity|]. split; [left; reflexivity|]. vm_compute. reflexivity. }
  destruct V as (s & sc & V & I & P & G). exact (H _ _ _ _ _ _ V I P G).
Qed.
Print Assumptions C65_declared_refuted.
