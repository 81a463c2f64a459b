(** C37: names of the generated code. *)
From Verif.Model Require Import Base Common Xml Units Field FieldCommon IntField EnumField SetField FloatField OptCond Composite Message Frame Protocol GenUtil GenComms.
From Verif.Spec Require Import Texts IntSpec XmlSpec FieldSpec ProtocolSpec DeclSpec NameSpec Ex.
From Verif.Proofs Require Import BaseFacts CommonFacts XmlFacts FieldInv FieldFacts MapFacts ProtocolFacts RefFacts DeclFacts NameFacts.
From Verif.Proofs Require ExFacts.
From Verif.Props Require Import ExProtocol PMerge.
Local Open Scope string_scope. Local Open Scope Z_scope. Local Open Scope list_scope.

(** ** C37 *)
(** Two names give the same class name exactly when they give the same accessor
    name, and exactly when they differ at most in the case of the first letter. *)
Theorem C37_class_names : forall a b, genClassName a = genClassName b <-> same_first_case_ignored a b.
Proof. exact class_eq. Qed.
Print Assumptions C37_class_names.
Theorem C37_access_names : forall a b, genAccessName a = genAccessName b <-> same_first_case_ignored a b.
Proof. exact access_eq. Qed.
Print Assumptions C37_access_names.

Section Global.
  Variables (multi : bool) (stod : str -> option spec_float) (docs : list node) (s : protocol) (sc : schema).
  Hypothesis Accepted : validate multi stod docs = Ok s.
  Hypothesis Schema : In sc (pr_schemas s).
  Lemma element_facts path t name : element sc path t name ->
    global_kind t /\ good_path path /\ valid name.
  Proof.
    intros E. pose proof (validate_ok _ _ _ _ Accepted) as P. unfold proto_ok in P. rewrite Forall_forall in P. specialize (P _ Schema).
    assert (X : forall n, namespace_at (sc_ns sc) path n -> good_path path /\ ns_ok n).
    { intros n H. destruct (path_cases _ _ _ P H) as [O [[-> _]|(N & F & _)]]; (split; [|exact O]); [left; reflexivity|right; auto]. }
    destruct t; cbn in E; try contradiction; (split; [exact I|]);
      destruct E as (f & (n & H & F) & <-); destruct (X n H) as [G O]; (split; [exact G|]); inversion O; subst;
      eapply elems_lookup in F; [apply F|eassumption|apply F|eassumption|apply F|eassumption|apply F|eassumption].
  Qed.
  Lemma element_same path t a b : element sc path t a -> element sc path t b -> same_first_case_ignored a b -> a = b.
  Proof.
    intros A B E.
    destruct t; cbn in A, B; try contradiction; destruct A as (f & (n & H & F) & <-), B as (g & (m & H' & F') & <-);
      rewrite <- (C28_one_namespace _ _ _ _ _ _ _ _ Accepted Schema H H') in F';
      destruct (C28_no_redefinition _ _ _ _ _ _ _ Accepted Schema H) as (D1 & D2 & D3 & D4).
    - eapply distinct_same; [exact D2|apply in_map; exact F|apply in_map; exact F'|exact E].
    - eapply distinct_same; [exact D1|apply in_map; exact F|apply in_map; exact F'|exact E].
    - eapply distinct_same; [exact D3|apply in_map; exact F|apply in_map; exact F'|exact E].
    - eapply distinct_same; [exact D4|apply in_map; exact F|apply in_map; exact F'|exact E].
  Qed.
  (** Two elements the schema defines are not generated into the same file, and
      their classes do not have the same qualified name - unless a namespace is
      called field, message or frame. *)
  Theorem C37_files_partial : forall main p1 t1 n1 p2 t2 n2, element sc p1 t1 n1 -> element sc p2 t2 n2 ->
    (forall k, In k p1 \/ In k p2 -> ~ kind_folder k) ->
    genRelHeaderPathFor main (parents_of p1 t1 n1) = genRelHeaderPathFor main (parents_of p2 t2 n2) ->
    p1 = p2 /\ t1 = t2 /\ n1 = n2.
  Proof.
    intros main p1 t1 n1 p2 t2 n2 A B K E. destruct (element_facts _ _ _ A) as (G1 & P1 & V1), (element_facts _ _ _ B) as (G2 & P2 & V2).
    unfold genRelHeaderPathFor in E. apply app_inv_tail in E.
    apply (joined_inj _ [] false main p1 t1 n1 p2 t2 n2) in E as (-> & -> & E); auto.
    split; [reflexivity|]. split; [reflexivity|]. eapply element_same; [exact A|exact B|]. apply class_eq. exact E.
  Qed.
  Theorem C37_classes_partial : forall main p1 t1 n1 p2 t2 n2, element sc p1 t1 n1 -> element sc p2 t2 n2 ->
    (forall k, In k p1 \/ In k p2 -> ~ kind_folder k) ->
    genScopeFor main (parents_of p1 t1 n1) = genScopeFor main (parents_of p2 t2 n2) ->
    p1 = p2 /\ t1 = t2 /\ n1 = n2.
  Proof.
    intros main p1 t1 n1 p2 t2 n2 A B K E. destruct (element_facts _ _ _ A) as (G1 & P1 & V1), (element_facts _ _ _ B) as (G2 & P2 & V2).
    unfold genScopeFor in E.
    apply (joined_inj _ (L ":") true main p1 t1 n1 p2 t2 n2) in E as (-> & -> & E); auto.
    split; [reflexivity|]. split; [reflexivity|]. eapply element_same; [exact A|exact B|]. apply class_eq. exact E.
  Qed.
End Global.
Print Assumptions C37_files_partial. Print Assumptions C37_classes_partial.

Section Examples.
  Variable sc : schema.
  Variable path : list txt.
  Let ns := match ns_at path (sc_ns sc) with Some n => n | None => empty_ns [] [] [] end.
  Hypothesis here : ns_at path (sc_ns sc) = Some ns.
  Lemma ex_at : namespace_at (sc_ns sc) path ns.
  Proof. apply ns_at_path in here. apply here. Qed.
  Lemma ex_field name : In name (map f_name (ns_fields_list ns)) -> element sc path EField name.
  Proof. intros H. apply in_map_iff in H as (f & E & H). exists f. split; [exists ns; split; [exact ex_at|exact H]|exact E]. Qed.
  Lemma ex_message name : In name (map m_name (ns_messages_list ns)) -> element sc path EMessage name.
  Proof. intros H. apply in_map_iff in H as (f & E & H). exists f. split; [exists ns; split; [exact ex_at|exact H]|exact E]. Qed.
  Lemma ex_iface name : In name (map if_name (ns_ifaces_list ns)) -> element sc path EInterface name.
  Proof. intros H. apply in_map_iff in H as (f & E & H). exists f. split; [exists ns; split; [exact ex_at|exact H]|exact E]. Qed.
  Lemma ex_frame name : In name (map fr_name (ns_frames_list ns)) -> element sc path EFrame name.
  Proof. intros H. apply in_map_iff in H as (f & E & H). exists f. split; [exists ns; split; [exact ex_at|exact H]|exact E]. Qed.
End Examples.
Example C37_ex : element (ex_schema 0) [T "a"; T "b"] EField (T "f1") /\ element (ex_schema 0) [T "a"] EMessage (T "M1") /\
  element (ex_schema 0) [T "a"] EInterface (T "I") /\ element (ex_schema 0) [T "a"] EFrame (T "F") /\
  genRelHeaderPathFor (T "one") (parents_of [T "a"; T "b"] EField (T "f1")) = T "one/a/b/field/F1.h" /\
  genRelHeaderPathFor (T "one") (parents_of [T "a"] EMessage (T "M1")) = T "one/a/message/M1.h" /\
  genScopeFor (T "one") (parents_of [T "a"] EInterface (T "I")) = T "one::a::I" /\
  genScopeFor (T "one") (parents_of [T "a"] EFrame (T "F")) = T "one::a::frame::F".
Proof.
  split; [apply ex_field; [vm_compute; reflexivity|vm_compute; auto]|].
  split; [apply ex_message; [vm_compute; reflexivity|vm_compute; auto]|].
  split; [apply ex_iface; [vm_compute; reflexivity|vm_compute; auto]|].
  split; [apply ex_frame; [vm_compute; reflexivity|vm_compute; auto]|].
  vm_compute. auto.
Qed.

(** Members of one bundle may give the same class and accessor names. *)
Definition clash_bundle : node :=
  el "bundle" [("name", "B")] [el "int" [("name", "abc"); ("type", "uint8")] []; el "int" [("name", "Abc"); ("type", "uint8")] []].
Theorem C37_members_refuted : exists f a b, accepted f /\ f_members f = [a; b] /\ f_name a <> f_name b /\
  genClassName (f_name a) = genClassName (f_name b) /\ genAccessName (f_name a) = genAccessName (f_name b).
Proof.
  pose (f := match ex_global [] clash_bundle with Ok f => f | _ => dummy_field end).
  exists f, (nth 0 (f_members f) dummy_field), (nth 1 (f_members f) dummy_field). split.
  - apply ExFacts.ex_accepted with (l := []) (x := global_ctx) (n := clash_bundle); [constructor|vm_compute; reflexivity].
  - do 1 (split; [vm_compute; reflexivity|]). split; [vm_compute; discriminate|]. split; vm_compute; reflexivity.
Qed.
Print Assumptions C37_members_refuted.

(** A namespace called field makes two elements share a file and a qualified name. *)
Definition clash_doc : node :=
  el "schema" [("name", "one")]
    [el "fields" [] [el "int" [("name", "x"); ("type", "uint8")] []; el "bundle" [("name", "Foo")] [el "int" [("name", "bar"); ("type", "uint8")] []];
                     el "bundle" [("name", "FooMembers")] [el "int" [("name", "y"); ("type", "uint8")] []]];
     el "ns" [("name", "field")] [el "interface" [("name", "X")] [el "int" [("name", "v"); ("type", "uint8")] []]]].
Definition clash_proto : protocol := match validate false no_stod [clash_doc] with Ok s => s | _ => new_protocol true no_stod end.
Definition clash_schema : schema := nth 0 (pr_schemas clash_proto) no_schema.
Lemma clash_accepted : validate false no_stod [clash_doc] = Ok clash_proto.
Proof. vm_compute. reflexivity. Qed.
Definition clash_ns : nspace := match nth_error (sc_ns clash_schema) 0 with Some (_, n) => n | None => empty_ns [] [] [] end.
Lemma clash_at : namespace_at (sc_ns clash_schema) [[]] clash_ns.
Proof. apply na_here. apply (nth_error_In _ 0). vm_compute. reflexivity. Qed.
Lemma clash_root : Forall (element clash_schema [[]] EField) [T "Foo"; T "FooMembers"; T "x"].
Proof.
  assert (E : [T "Foo"; T "FooMembers"; T "x"] = map f_name (ns_fields_list clash_ns)) by (vm_compute; reflexivity).
  rewrite E. apply Forall_map, Forall_forall. intros f H. exists f. split; [|reflexivity]. exists clash_ns. split; [exact clash_at|exact H].
Qed.
Lemma clash_elem i name : nth_error [T "Foo"; T "FooMembers"; T "x"] i = Some name -> element clash_schema [[]] EField name.
Proof. intros H. pose proof clash_root as F. rewrite Forall_forall in F. apply F. apply nth_error_In in H. exact H. Qed.
Theorem C37_files_refuted : exists docs s sc p1 t1 n1 p2 t2 n2,
  validate false no_stod docs = Ok s /\ In sc (pr_schemas s) /\ element sc p1 t1 n1 /\ element sc p2 t2 n2 /\ t1 <> t2 /\
  genRelHeaderPathFor (T "one") (parents_of p1 t1 n1) = genRelHeaderPathFor (T "one") (parents_of p2 t2 n2) /\
  genScopeFor (T "one") (parents_of p1 t1 n1) = genScopeFor (T "one") (parents_of p2 t2 n2).
Proof.
  exists [clash_doc], clash_proto, clash_schema, [[]], EField, (T "x"), [T "field"], EInterface, (T "X").
  split; [exact clash_accepted|]. split; [apply (nth_error_In _ 0); vm_compute; reflexivity|]. split; [apply (clash_elem 2); reflexivity|].
  split; [apply ex_iface; [vm_compute; reflexivity|vm_compute; auto]|]. split; [discriminate|]. vm_compute. auto.
Qed.
Print Assumptions C37_files_refuted.
(** The struct that holds the member classes of one field may be the class of another. *)
Theorem C37_members_struct_refuted : exists docs s sc a b m,
  validate false no_stod docs = Ok s /\ In sc (pr_schemas s) /\ element sc [[]] EField a /\ element sc [[]] EField b /\ a <> b /\
  (exists f, field_at sc [[]] f /\ f_name f = a /\ In m (map f_name (f_members f))) /\
  genScopeFor (T "one") ((EField, m) :: parents_of [[]] EField a) = genScopeFor (T "one") (parents_of [[]] EField b) ++ T "::" ++ genClassName m.
Proof.
  exists [clash_doc], clash_proto, clash_schema, (T "Foo"), (T "FooMembers"), (T "bar").
  split; [exact clash_accepted|]. split; [apply (nth_error_In _ 0); vm_compute; reflexivity|]. split; [apply (clash_elem 0); reflexivity|]. split; [apply (clash_elem 1); reflexivity|].
  split; [discriminate|]. split; [|vm_compute; reflexivity].
  exists (nth 0 (ns_fields_list clash_ns) dummy_field). split.
  - exists clash_ns. split; [exact clash_at|]. apply (nth_error_In _ 0). vm_compute. reflexivity.
  - split; [vm_compute; reflexivity|]. vm_compute. auto.
Qed.
Print Assumptions C37_members_struct_refuted.
