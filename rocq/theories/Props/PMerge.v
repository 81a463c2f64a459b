(** C28: namespaces over several files. *)
From Coq Require Import Sorting.Sorted Sorting.Permutation.
From Verif.Model Require Import Base Common Xml Units Field FieldCommon IntField EnumField SetField FloatField OptCond Composite Message Frame Protocol.
From Verif.Spec Require Import Texts IntSpec XmlSpec FieldSpec ProtocolSpec DeclSpec Ex.
From Verif.Proofs Require Import BaseFacts CommonFacts RangeFacts XmlFacts FieldInv FieldFacts MapFacts ProtocolFacts RefFacts DeclFacts DeclKinds.
From Verif.Props Require Import ExProtocol.
Local Open Scope string_scope. Local Open Scope Z_scope. Local Open Scope list_scope.

(** ** C28 *)
Theorem C28_all_fields : forall multi stod docs s, validate multi stod docs = Ok s ->
  all_defined None (T "fields") field_of ns_fields_list docs s.
Proof. exact fields_defined. Qed.
Print Assumptions C28_all_fields.
Theorem C28_all_messages : forall multi stod docs s, validate multi stod docs = Ok s ->
  all_defined (Some (T "message")) (T "messages") message_of ns_messages_list docs s.
Proof. exact messages_defined. Qed.
Print Assumptions C28_all_messages.
Theorem C28_all_interfaces : forall multi stod docs s, validate multi stod docs = Ok s ->
  all_defined (Some (T "interface")) (T "interfaces") iface_of ns_ifaces_list docs s.
Proof. exact ifaces_defined. Qed.
Print Assumptions C28_all_interfaces.
Theorem C28_all_frames : forall multi stod docs s, validate multi stod docs = Ok s ->
  all_defined (Some (T "frame")) (T "frames") frame_of ns_frames_list docs s.
Proof. exact frames_defined. Qed.
Print Assumptions C28_all_frames.

(** a path names one namespace *)
Theorem C28_one_namespace : forall multi stod docs s sc path n m, validate multi stod docs = Ok s -> In sc (pr_schemas s) ->
  namespace_at (sc_ns sc) path n -> namespace_at (sc_ns sc) path m -> n = m.
Proof.
  intros multi stod docs s sc path n m H Hi A B. pose proof (validate_ok _ _ _ _ H) as P. unfold proto_ok in P. rewrite Forall_forall in P. specialize (P _ Hi).
  destruct (path_cases _ _ _ P A) as [_ CA]. destruct (path_cases _ _ _ P B) as [_ CB].
  destruct CA as [[-> A1]|(N1 & V1 & A1)], CB as [[E B1]|(N2 & V2 & B1)]; try congruence.
  - inversion V2; subst. discriminate.
  - subst. inversion V1; subst. discriminate.
Qed.
Print Assumptions C28_one_namespace.
Lemma same_key a b : same_first_case_ignored a b -> key_norm a = key_norm b.
Proof. intros [->|(x & y & t & -> & -> & E)]; [reflexivity|]. cbn. congruence. Qed.
Lemma elems_distinct {A} name (Q : A -> Prop) l : elems_ok name Q l -> distinct_names (map name (by_name name l)).
Proof.
  intros [S H]. unfold distinct_names.
  assert (F : ForallOrdPairs (fun a b => ~ same_first_case_ignored a b) (map name (map snd l))).
  { induction S as [|[k v] l S IH F]; cbn; [constructor|]. constructor.
    - rewrite Forall_forall in *. intros b B. rewrite map_map in B. apply in_map_iff in B as ([k' v'] & <- & B). cbn. specialize (F _ B). cbn in F.
      destruct (H k v) as (<- & _); [left; reflexivity|]. destruct (H k' v') as (<- & _); [right; exact B|]. intros X. apply same_key in X.
      unfold key_ltb in F. rewrite X, str_ltb_irrefl in F. discriminate.
    - apply IH. intros k' v' B. apply H. right. exact B. }
  assert (Sym : forall a b, ~ same_first_case_ignored a b -> ~ same_first_case_ignored b a).
  { intros a b N X. apply N. destruct X as [->|(x & y & t & -> & -> & E)]; [left; reflexivity|right; eauto 8]. }
  assert (G : forall l l' : list txt, Permutation l l' -> ForallOrdPairs (fun a b => ~ same_first_case_ignored a b) l -> ForallOrdPairs (fun a b => ~ same_first_case_ignored a b) l').
  { clear - Sym. induction 1 as [|x l l' P IH|x y l|l1 l2 l3 P1 IH1 P2 IH2]; intros O; auto.
    - inversion O; subst. constructor; [|auto]. rewrite <- P. assumption.
    - inversion O as [|? ? F1 O1]; subst. inversion O1 as [|? ? F2 O2]; subst. inversion F1 as [|? ? X F3]; subst. constructor; [constructor; [auto|assumption]|constructor; assumption]. }
  eapply G; [|exact F]. apply Permutation_map. symmetry. apply sort_perm.
Qed.
(** so a name is defined once per namespace and kind *)
Theorem C28_no_redefinition : forall multi stod docs s sc path n, validate multi stod docs = Ok s -> In sc (pr_schemas s) ->
  namespace_at (sc_ns sc) path n ->
  distinct_names (map f_name (ns_fields_list n)) /\ distinct_names (map m_name (ns_messages_list n)) /\
  distinct_names (map if_name (ns_ifaces_list n)) /\ distinct_names (map fr_name (ns_frames_list n)).
Proof.
  intros multi stod docs s sc path n H Hi A. pose proof (validate_ok _ _ _ _ H) as P. unfold proto_ok in P. rewrite Forall_forall in P. specialize (P _ Hi).
  destruct (path_cases _ _ _ P A) as [O _]. inversion O; subst.
  split; [eapply elems_distinct; eassumption|]. split; [eapply elems_distinct; eassumption|]. split; eapply elems_distinct; eassumption.
Qed.
Print Assumptions C28_no_redefinition.

(** the namespace "a.b" of [ex_docs] is written in two files *)
Example C28_ex : map f_name (ns_fields_list (ex_ns 0 ["a"; "b"])) = [T "f1"; T "f2"] /\
  map m_name (ns_messages_list (ex_ns 0 ["a"])) = [T "M1"; T "M2"] /\ map fr_name (ns_frames_list (ex_ns 0 ["a"])) = [T "F"] /\
  map if_name (ns_ifaces_list (ex_ns 0 ["a"])) = [T "I"].
Proof. vm_compute. auto. Qed.
Definition redefine (name : string) : list node :=
  [ex_doc1; el "schema" [] [el "ns" [("name", "a")] [el "ns" [("name", "b")] [el "fields" [] [el "int" [("name", name); ("type", "int8")] []]]]]].
Example C28_ex_redefined : validate true no_stod (redefine "f1") = Err /\ validate true no_stod (redefine "F1") = Err /\
  is_Ok (validate true no_stod (redefine "f3")) = true.
Proof. vm_compute. auto. Qed.
