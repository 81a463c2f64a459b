(** C66: how the generator finds global elements by their external references. *)
From Verif.Model Require Import Base Common Xml Units Field FieldCommon IntField EnumField SetField FloatField OptCond Composite Message Frame Protocol GenComms CommsFactory GenSelect.
From Verif.Spec Require Import Texts IntSpec XmlSpec FieldSpec ProtocolSpec SelectSpec Ex.
From Verif.Proofs Require Import BaseFacts CommonFacts RangeFacts XmlFacts FieldInv FieldFacts OwnFacts SingleFacts MapFacts ProtocolFacts RefFacts SelectFacts.
From Verif.Props Require Import ExProtocol.
Local Open Scope string_scope. Local Open Scope Z_scope. Local Open Scope list_scope.

Lemma ext_ref_places s i sc path n name : proto_ok s -> nth_error (pr_schemas s) i = Some sc -> namespace_at (sc_ns sc) path n ->
  (forall cur, names_place (pr_schemas s) cur (ext_ref (Some (sc_name sc)) path name) i path name) /\
  names_place (pr_schemas s) i (ext_ref None path name) i path name.
Proof.
  intros P J At. assert (O : nss_ok (sc_ns sc)) by (unfold proto_ok in P; rewrite Forall_forall in P; apply P; eapply nth_error_In; exact J).
  destruct (path_cases _ _ _ O At) as [_ C].
  assert (C' : path = [[]] \/ path <> [] /\ Forall valid path) by (destruct C as [[-> _]|(X & Y & _)]; auto).
  split; [intro cur|]; exists (path_text path name); (split; [left; reflexivity|]).
  - right. exists sc. split; [exact J|]. now apply ext_ref_schema.
  - left. split; [reflexivity|]. now apply ext_ref_text.
Qed.

(** ** C66 *)
(** Every global element of every schema is found, from wherever, by its external reference with the name of the schema,
    and in its own schema also by the one without; what is found is that very element, at that very place. *)
Theorem C66_field_found : forall multi stod docs s i sc path x, validate multi stod docs = Ok s ->
  nth_error (pr_schemas s) i = Some sc -> field_at sc path x ->
  (forall cur, genFindField (pr_schemas s) cur (ext_ref (Some (sc_name sc)) path (f_name x)) = Some (i, path, x)) /\
  genFindField (pr_schemas s) i (ext_ref None path (f_name x)) = Some (i, path, x).
Proof.
  intros multi stod docs s i sc path x H J (n & At & I). pose proof (validate_ok _ _ _ _ H) as P. pose proof (validate_names _ _ _ _ H) as N.
  destruct (ext_ref_places s i sc path n (f_name x) P J At) as [A B].
  split; [intro cur|]; apply (gen_find_iff f_name ns_fields_list leaf_ok_fields s P N); eauto 8.
Qed.
Print Assumptions C66_field_found.
Theorem C66_message_found : forall multi stod docs s i sc path x, validate multi stod docs = Ok s ->
  nth_error (pr_schemas s) i = Some sc -> message_at sc path x ->
  (forall cur, genGindMessage (pr_schemas s) cur (ext_ref (Some (sc_name sc)) path (m_name x)) = Some (i, path, x)) /\
  genGindMessage (pr_schemas s) i (ext_ref None path (m_name x)) = Some (i, path, x).
Proof.
  intros multi stod docs s i sc path x H J (n & At & I). pose proof (validate_ok _ _ _ _ H) as P. pose proof (validate_names _ _ _ _ H) as N.
  destruct (ext_ref_places s i sc path n (m_name x) P J At) as [A B].
  split; [intro cur|]; apply (gen_find_iff m_name ns_messages_list leaf_ok_messages s P N); eauto 8.
Qed.
Print Assumptions C66_message_found.
Theorem C66_interface_found : forall multi stod docs s i sc path x, validate multi stod docs = Ok s ->
  nth_error (pr_schemas s) i = Some sc -> iface_at sc path x ->
  (forall cur, genFindInterface (pr_schemas s) cur (ext_ref (Some (sc_name sc)) path (if_name x)) = Some (i, path, x)) /\
  genFindInterface (pr_schemas s) i (ext_ref None path (if_name x)) = Some (i, path, x).
Proof.
  intros multi stod docs s i sc path x H J (n & At & I). pose proof (validate_ok _ _ _ _ H) as P. pose proof (validate_names _ _ _ _ H) as N.
  destruct (ext_ref_places s i sc path n (if_name x) P J At) as [A B].
  split; [intro cur|]; apply (gen_find_iff if_name ns_ifaces_list leaf_ok_ifaces s P N); eauto 8.
Qed.
Print Assumptions C66_interface_found.
Theorem C66_frame_found : forall multi stod docs s i sc path x, validate multi stod docs = Ok s ->
  nth_error (pr_schemas s) i = Some sc -> frame_at sc path x ->
  (forall cur, genFindFrame (pr_schemas s) cur (ext_ref (Some (sc_name sc)) path (fr_name x)) = Some (i, path, x)) /\
  genFindFrame (pr_schemas s) i (ext_ref None path (fr_name x)) = Some (i, path, x).
Proof.
  intros multi stod docs s i sc path x H J (n & At & I). pose proof (validate_ok _ _ _ _ H) as P. pose proof (validate_names _ _ _ _ H) as N.
  destruct (ext_ref_places s i sc path n (fr_name x) P J At) as [A B].
  split; [intro cur|]; apply (gen_find_iff fr_name ns_frames_list leaf_ok_frames s P N); eauto 8.
Qed.
Print Assumptions C66_frame_found.
(** The other way: what is found is an element of a schema, and the reference is its place: the path and the name, with
    the name of the schema unless it is the current one; nothing else is found, whatever the text. *)
Theorem C66_field_only : forall multi stod docs s cur ref i path x, validate multi stod docs = Ok s ->
  (genFindField (pr_schemas s) cur ref = Some (i, path, x) <->
   exists sc, nth_error (pr_schemas s) i = Some sc /\ field_at sc path x /\ names_place (pr_schemas s) cur ref i path (f_name x)).
Proof.
  intros multi stod docs s cur ref i path x H. pose proof (validate_ok _ _ _ _ H) as P. pose proof (validate_names _ _ _ _ H) as N.
  unfold genFindField. rewrite (gen_find_iff f_name ns_fields_list leaf_ok_fields s P N). split.
  - intros (sc & m & J & At & I & W). exists sc. split; [exact J|]. split; [now exists m|exact W].
  - intros (sc & J & (m & At & I) & W). eauto 8.
Qed.
Print Assumptions C66_field_only.
Theorem C66_message_only : forall multi stod docs s cur ref i path x, validate multi stod docs = Ok s ->
  (genGindMessage (pr_schemas s) cur ref = Some (i, path, x) <->
   exists sc, nth_error (pr_schemas s) i = Some sc /\ message_at sc path x /\ names_place (pr_schemas s) cur ref i path (m_name x)).
Proof.
  intros multi stod docs s cur ref i path x H. pose proof (validate_ok _ _ _ _ H) as P. pose proof (validate_names _ _ _ _ H) as N.
  unfold genGindMessage. rewrite (gen_find_iff m_name ns_messages_list leaf_ok_messages s P N). split.
  - intros (sc & m & J & At & I & W). exists sc. split; [exact J|]. split; [now exists m|exact W].
  - intros (sc & J & (m & At & I) & W). eauto 8.
Qed.
Print Assumptions C66_message_only.
Theorem C66_interface_only : forall multi stod docs s cur ref i path x, validate multi stod docs = Ok s ->
  (genFindInterface (pr_schemas s) cur ref = Some (i, path, x) <->
   exists sc, nth_error (pr_schemas s) i = Some sc /\ iface_at sc path x /\ names_place (pr_schemas s) cur ref i path (if_name x)).
Proof.
  intros multi stod docs s cur ref i path x H. pose proof (validate_ok _ _ _ _ H) as P. pose proof (validate_names _ _ _ _ H) as N.
  unfold genFindInterface. rewrite (gen_find_iff if_name ns_ifaces_list leaf_ok_ifaces s P N). split.
  - intros (sc & m & J & At & I & W). exists sc. split; [exact J|]. split; [now exists m|exact W].
  - intros (sc & J & (m & At & I) & W). eauto 8.
Qed.
Print Assumptions C66_interface_only.
Theorem C66_frame_only : forall multi stod docs s cur ref i path x, validate multi stod docs = Ok s ->
  (genFindFrame (pr_schemas s) cur ref = Some (i, path, x) <->
   exists sc, nth_error (pr_schemas s) i = Some sc /\ frame_at sc path x /\ names_place (pr_schemas s) cur ref i path (fr_name x)).
Proof.
  intros multi stod docs s cur ref i path x H. pose proof (validate_ok _ _ _ _ H) as P. pose proof (validate_names _ _ _ _ H) as N.
  unfold genFindFrame. rewrite (gen_find_iff fr_name ns_frames_list leaf_ok_frames s P N). split.
  - intros (sc & m & J & At & I & W). exists sc. split; [exact J|]. split; [now exists m|exact W].
  - intros (sc & J & (m & At & I) & W). eauto 8.
Qed.
Print Assumptions C66_frame_only.
(** A reference which the parser resolves while it reads the schema number [j] leads the generator, by the external reference
    of the element found, to the same element. *)
Theorem C66_field_same : forall multi stod docs s j ref check x, validate multi stod docs = Ok s ->
  find_field (at_schema j s) ref check = Some x ->
  exists i sc path, nth_error (pr_schemas s) i = Some sc /\ (i <= j)%nat /\
    (exists name, same_first_case_ignored (f_name x) name /\ (ref = ext_ref (Some (sc_name sc)) path name \/ i = j /\ ref = ext_ref None path name)) /\
    (forall cur, genFindField (pr_schemas s) cur (ext_ref (Some (sc_name sc)) path (f_name x)) = Some (i, path, x)) /\
    genFindField (pr_schemas s) i (ext_ref None path (f_name x)) = Some (i, path, x).
Proof.
  intros multi stod docs s j ref check x H F0. pose proof (validate_ok _ _ _ _ H) as P.
  apply find_sound in F0 as (i & sc & path & name & n & L & Hi & R & Hn & G). cbn [at_schema pr_cur pr_schemas] in *.
  apply kfind_In in G as (k & G & K). apply key_same in K.
  assert (O : nss_ok (sc_ns sc)) by (unfold proto_ok in P; rewrite Forall_forall in P; apply P; eapply nth_error_In; exact Hi).
  destruct (path_cases _ _ _ O Hn) as [On C].
  assert (C' : path = [[]] \/ path <> [] /\ Forall valid path) by (destruct C as [[-> _]|(X & Y & _)]; auto).
  inversion On as [? F F1 F2 F3 F4 F5 F6]; subst. destruct F as [S M]. destruct (M _ _ G) as (EK & _). subst k.
  exists i, sc, path. split; [exact Hi|]. split; [exact L|]. split.
  - exists name. split; [exact K|]. rewrite ext_ref_schema, ext_ref_text by exact C'. tauto.
  - eapply C66_field_found; [exact H|exact Hi|]. exists n. split; [exact Hn|]. unfold ns_fields_list. apply by_name_In. eexists. exact G.
Qed.
Print Assumptions C66_field_same.
Theorem C66_message_same : forall multi stod docs s j ref check x, validate multi stod docs = Ok s ->
  find_message (at_schema j s) ref check = Some x ->
  exists i sc path, nth_error (pr_schemas s) i = Some sc /\ (i <= j)%nat /\
    (exists name, same_first_case_ignored (m_name x) name /\ (ref = ext_ref (Some (sc_name sc)) path name \/ i = j /\ ref = ext_ref None path name)) /\
    (forall cur, genGindMessage (pr_schemas s) cur (ext_ref (Some (sc_name sc)) path (m_name x)) = Some (i, path, x)) /\
    genGindMessage (pr_schemas s) i (ext_ref None path (m_name x)) = Some (i, path, x).
Proof.
  intros multi stod docs s j ref check x H F0. pose proof (validate_ok _ _ _ _ H) as P.
  apply find_sound in F0 as (i & sc & path & name & n & L & Hi & R & Hn & G). cbn [at_schema pr_cur pr_schemas] in *.
  apply kfind_In in G as (k & G & K). apply key_same in K.
  assert (O : nss_ok (sc_ns sc)) by (unfold proto_ok in P; rewrite Forall_forall in P; apply P; eapply nth_error_In; exact Hi).
  destruct (path_cases _ _ _ O Hn) as [On C].
  assert (C' : path = [[]] \/ path <> [] /\ Forall valid path) by (destruct C as [[-> _]|(X & Y & _)]; auto).
  inversion On as [? F1 F F2 F3 F4 F5 F6]; subst. destruct F as [S M]. destruct (M _ _ G) as (EK & _). subst k.
  exists i, sc, path. split; [exact Hi|]. split; [exact L|]. split.
  - exists name. split; [exact K|]. rewrite ext_ref_schema, ext_ref_text by exact C'. tauto.
  - eapply C66_message_found; [exact H|exact Hi|]. exists n. split; [exact Hn|]. unfold ns_messages_list. apply by_name_In. eexists. exact G.
Qed.
Print Assumptions C66_message_same.
Theorem C66_interface_same : forall multi stod docs s j ref check x, validate multi stod docs = Ok s ->
  find_iface (at_schema j s) ref check = Some x ->
  exists i sc path, nth_error (pr_schemas s) i = Some sc /\ (i <= j)%nat /\
    (exists name, same_first_case_ignored (if_name x) name /\ (ref = ext_ref (Some (sc_name sc)) path name \/ i = j /\ ref = ext_ref None path name)) /\
    (forall cur, genFindInterface (pr_schemas s) cur (ext_ref (Some (sc_name sc)) path (if_name x)) = Some (i, path, x)) /\
    genFindInterface (pr_schemas s) i (ext_ref None path (if_name x)) = Some (i, path, x).
Proof.
  intros multi stod docs s j ref check x H F0. pose proof (validate_ok _ _ _ _ H) as P.
  apply find_sound in F0 as (i & sc & path & name & n & L & Hi & R & Hn & G). cbn [at_schema pr_cur pr_schemas] in *.
  apply kfind_In in G as (k & G & K). apply key_same in K.
  assert (O : nss_ok (sc_ns sc)) by (unfold proto_ok in P; rewrite Forall_forall in P; apply P; eapply nth_error_In; exact Hi).
  destruct (path_cases _ _ _ O Hn) as [On C].
  assert (C' : path = [[]] \/ path <> [] /\ Forall valid path) by (destruct C as [[-> _]|(X & Y & _)]; auto).
  inversion On as [? F1 F2 F F3 F4 F5 F6]; subst. destruct F as [S M]. destruct (M _ _ G) as (EK & _). subst k.
  exists i, sc, path. split; [exact Hi|]. split; [exact L|]. split.
  - exists name. split; [exact K|]. rewrite ext_ref_schema, ext_ref_text by exact C'. tauto.
  - eapply C66_interface_found; [exact H|exact Hi|]. exists n. split; [exact Hn|]. unfold ns_ifaces_list. apply by_name_In. eexists. exact G.
Qed.
Print Assumptions C66_interface_same.
(** one place has one reference: different elements of one kind have different references *)
Theorem C66_unambiguous : forall multi stod docs s i j sc sc' path path' x y, validate multi stod docs = Ok s ->
  nth_error (pr_schemas s) i = Some sc -> nth_error (pr_schemas s) j = Some sc' -> message_at sc path x -> message_at sc' path' y ->
  ext_ref (Some (sc_name sc)) path (m_name x) = ext_ref (Some (sc_name sc')) path' (m_name y) -> i = j /\ path = path' /\ x = y.
Proof.
  intros multi stod docs s i j sc sc' path path' x y H I J X Y E.
  destruct (C66_message_found _ _ _ _ _ _ _ _ H I X) as [A _]. destruct (C66_message_found _ _ _ _ _ _ _ _ H J Y) as [B _].
  specialize (A O). specialize (B O). rewrite E, B in A. injection A as <- <- <-. auto.
Qed.
Print Assumptions C66_unambiguous.

(** the protocol of ExProtocol.v: f2 in the namespace a.b, by its references from both schemas, the message, the interface and
    the frame of a; a wrong case, a missing namespace, a wrong schema, a reference without the schema from the other one *)
Definition found_at {A} (name : A -> txt) (r : option (nat * list txt * A)) : option (nat * list txt * txt) :=
  match r with Some (i, p, x) => Some (i, p, name x) | None => None end.
Example C66_ex : let field := fun cur ref => found_at f_name (genFindField (pr_schemas ex_proto) cur (T ref)) in
  let f2 := Some (0%nat, [T "a"; T "b"], T "f2") in
  field 0%nat "a.b.f2" = f2 /\ field 1%nat "@one.a.b.f2" = f2 /\ field 0%nat "@one.a.b.f2" = f2 /\
  field 1%nat "g" = Some (1%nat, [[]], T "g") /\ field 1%nat ".g" = Some (1%nat, [[]], T "g") /\ field 0%nat "@two.g" = Some (1%nat, [[]], T "g") /\
  field 1%nat "a.b.f2" = None /\ field 0%nat "a.b.F2" = None /\ field 0%nat "b.f2" = None /\ field 0%nat "@zzz.a.b.f2" = None /\
  field 0%nat "a.b" = None /\ field 0%nat "a.b." = None /\ field 0%nat "" = None /\ field 0%nat "@one" = None /\
  found_at m_name (genGindMessage (pr_schemas ex_proto) 1 (T "@one.a.M2")) = Some (0%nat, [T "a"], T "M2") /\
  found_at if_name (genFindInterface (pr_schemas ex_proto) 0 (T "a.I")) = Some (0%nat, [T "a"], T "I") /\
  found_at fr_name (genFindFrame (pr_schemas ex_proto) 0 (T "a.F")) = Some (0%nat, [T "a"], T "F").
Proof. vm_compute. repeat split; reflexivity. Qed.
Example C66_ex_found : exists f sc, validate true no_stod ex_docs = Ok ex_proto /\ nth_error (pr_schemas ex_proto) 0 = Some sc /\
  field_at sc [T "a"; T "b"] f /\ f_name f = T "f2" /\ find_field (at_schema 1 ex_proto) (T "@one.a.b.F2") true = Some f.
Proof.
  exists (nth 1 (ns_fields_list (ex_ns 0 ["a"; "b"])) dummy_field), (ex_schema 0).
  split; [exact ex_accepted|]. split; [vm_compute; reflexivity|]. split.
  - exists (ex_ns 0 ["a"; "b"]). split; [|apply (nth_error_In _ 1); vm_compute; reflexivity].
    apply na_sub with (n := ex_ns 0 ["a"]); [apply (nth_error_In _ 1); vm_compute; reflexivity|].
    apply na_here. apply (nth_error_In _ 0). vm_compute. reflexivity.
  - split; vm_compute; reflexivity.
Qed.
