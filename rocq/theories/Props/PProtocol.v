(** C27: references to global elements. *)
From Verif.Model Require Import Base Common Xml Units Field FieldCommon IntField EnumField SetField FloatField OptCond Composite Message Frame Protocol.
From Verif.Spec Require Import Texts IntSpec XmlSpec FieldSpec ProtocolSpec Ex.
From Verif.Proofs Require Import BaseFacts CommonFacts RangeFacts XmlFacts FieldInv FieldFacts OwnFacts SingleFacts MapFacts ProtocolFacts RefFacts.
From Verif.Props Require Import ExProtocol.
Local Open Scope string_scope. Local Open Scope Z_scope. Local Open Scope list_scope.

(** ** C27 *)
(** from the schema itself the external reference is written without the schema's name, from this and every later
    schema with it *)
Theorem C27_field_found : forall multi stod docs s i j sc path f, validate multi stod docs = Ok s ->
  nth_error (pr_schemas s) i = Some sc -> field_at sc path f -> (i <= j)%nat ->
  find_field (at_schema j s) (ext_ref (Some (sc_name sc)) path (f_name f)) true = Some f /\
  find_field (at_schema i s) (ext_ref None path (f_name f)) true = Some f.
Proof.
  intros multi stod docs s i j sc path f H Hi (n & Hn & X) L. pose proof (validate_ok _ _ _ _ H) as P. pose proof (validate_names _ _ _ _ H) as N.
  assert (O : ns_ok n). { eapply path_cases; [|exact Hn]. rewrite <- (nth_error_nth _ _ no_schema Hi). apply proto_nth. exact P. }
  inversion O as [? F _ _ _ _ _ _]; subst. destruct (elems_lookup _ _ _ _ F X) as (V & M & _).
  eapply find_complete; eassumption.
Qed.
Print Assumptions C27_field_found.
Theorem C27_message_found : forall multi stod docs s i j sc path f, validate multi stod docs = Ok s ->
  nth_error (pr_schemas s) i = Some sc -> message_at sc path f -> (i <= j)%nat ->
  find_message (at_schema j s) (ext_ref (Some (sc_name sc)) path (m_name f)) true = Some f /\
  find_message (at_schema i s) (ext_ref None path (m_name f)) true = Some f.
Proof.
  intros multi stod docs s i j sc path f H Hi (n & Hn & X) L. pose proof (validate_ok _ _ _ _ H) as P. pose proof (validate_names _ _ _ _ H) as N.
  assert (O : ns_ok n). { eapply path_cases; [|exact Hn]. rewrite <- (nth_error_nth _ _ no_schema Hi). apply proto_nth. exact P. }
  inversion O as [? _ F _ _ _ _ _]; subst. destruct (elems_lookup _ _ _ _ F X) as (V & M & _).
  eapply find_complete; eassumption.
Qed.
Print Assumptions C27_message_found.
Theorem C27_interface_found : forall multi stod docs s i j sc path f, validate multi stod docs = Ok s ->
  nth_error (pr_schemas s) i = Some sc -> iface_at sc path f -> (i <= j)%nat ->
  find_iface (at_schema j s) (ext_ref (Some (sc_name sc)) path (if_name f)) true = Some f /\
  find_iface (at_schema i s) (ext_ref None path (if_name f)) true = Some f.
Proof.
  intros multi stod docs s i j sc path f H Hi (n & Hn & X) L. pose proof (validate_ok _ _ _ _ H) as P. pose proof (validate_names _ _ _ _ H) as N.
  assert (O : ns_ok n). { eapply path_cases; [|exact Hn]. rewrite <- (nth_error_nth _ _ no_schema Hi). apply proto_nth. exact P. }
  inversion O as [? _ _ F _ _ _ _]; subst. destruct (elems_lookup _ _ _ _ F X) as (V & M & _).
  eapply find_complete; eassumption.
Qed.
Print Assumptions C27_interface_found.

(** the other way: at any moment ([s] is any state) what a reference finds is stored, in the current or an earlier
    schema, in the namespace the reference names and under the name it ends with (case of its first letter ignored) *)
Definition names_element {A} (s : protocol) (elems : nspace -> list (txt * A)) (ref : txt) (v : A) : Prop :=
  exists i sc path name n key, (i <= pr_cur s)%nat /\ nth_error (pr_schemas s) i = Some sc /\
    (i = pr_cur s /\ ref = path_text path name \/ ref = "@"%char :: sc_name sc ++ "."%char :: path_text path name) /\
    namespace_at (sc_ns sc) path n /\ In (key, v) (elems n) /\ same_first_case_ignored key name.
Theorem C27_only_defined : forall s ref check,
  (forall f, find_field s ref check = Some f -> names_element s ns_fields ref f) /\
  (forall m, find_message s ref check = Some m -> names_element s ns_messages ref m) /\
  (forall i, find_iface s ref check = Some i -> names_element s ns_ifaces ref i).
Proof.
  intros s ref check. repeat split; intros v H; apply find_sound in H as (i & sc & path & name & n & L & Hi & R & Hn & F);
    apply kfind_In in F as (k & F & K); apply key_same in K; exists i, sc, path, name, n, k; auto 8.
Qed.
Print Assumptions C27_only_defined.
(** an element whose <ref field="..."> or reuse="..." is not found is rejected *)
Theorem C27_unresolved_reuse_rejected : forall e x n f v vs, parse_field e x n = Ok f -> supplied n (T "reuse") (v :: vs) ->
  exists g, e_find e v = Some g /\ f_kind g = f_kind f.
Proof.
  intros e x n f v vs H Hs. apply field_parse_inv in H as (fuel' & k & p & c0 & old & repl & c & E & Hk & Hp & Hr & Hrep & Hc & Hkp & Hv).
  pose proof (kind_parse_common _ _ _ _ _ _ _ _ _ _ _ Hkp) as (K & _).
  assert (S : In (L "reuse") common_props) by (apply In_dec_eval; reflexivity).
  pose proof (supplied_det _ _ _ _ Hs (common_supplied _ _ _ _ Hp S)) as F.
  unfold check_reuse in Hr. apply bind_Ok in Hr as (u & _ & Hr). rewrite find_values, <- F in Hr. cbn [hd_error] in Hr.
  apply bind_Ok in Hr as (g & Hg & Hr). apply of_opt_Ok in Hg. apply bind_Ok in Hr as (u2 & Hk2 & _). exists g. split; [exact Hg|].
  rewrite K. unfold guard in Hk2. destruct (f_kind g), k; try discriminate; reflexivity.
Qed.
Print Assumptions C27_unresolved_reuse_rejected.
Theorem C27_unresolved_ref_rejected : forall e x n f v vs, n_name n = T "ref" -> parse_field e x n = Ok f -> supplied n (T "field") (v :: vs) ->
  exists c b g, f = FRef c b g /\ e_find e v = Some g.
Proof.
  intros e x n f v vs Hn H Hs. apply field_parse_inv in H as (fuel' & k & p & c0 & old & repl & c & E & Hk & Hp & Hr & Hrep & Hc & Hkp & Hv).
  rewrite Hn in Hk. injection Hk as <-. cbn [kind_parse] in Hkp.
  assert (S : supplied n (L "field") (values_of p (L "field"))).
  { eapply field_props_supplied; [exact Hp|discriminate|right; split|].
    - left. reflexivity.
    - apply mem_str_nIn. vm_compute. reflexivity.
    - intros []. }
  pose proof (supplied_det _ _ _ _ Hs S) as F. apply bind_Ok in Hkp as (u & _ & Hkp). unfold ref_parse in Hkp.
  apply bind_Ok in Hkp as (u' & _ & Hkp). rewrite find_values, <- F in Hkp. cbn [hd_error] in Hkp.
  apply bind_Ok in Hkp as (g & Hg & Hkp). apply of_opt_Ok in Hg. apply bind_Ok in Hkp as (b & _ & Hkp). injection Hkp as <-. eauto.
Qed.
Print Assumptions C27_unresolved_ref_rejected.

(** a field two namespaces deep, from its own schema and from the next one *)
Lemma ex_in_ns {A} (f : A) l i : nth_error l i = Some f -> In f l.
Proof. apply nth_error_In. Qed.
Example C27_ex : exists f sc, validate true no_stod ex_docs = Ok ex_proto /\ nth_error (pr_schemas ex_proto) 0 = Some sc /\
  field_at sc [T "a"; T "b"] f /\ f_name f = T "f2" /\
  ext_ref (Some (sc_name sc)) [T "a"; T "b"] (f_name f) = T "@one.a.b.f2" /\ ext_ref None [T "a"; T "b"] (f_name f) = T "a.b.f2" /\
  find_field (at_schema 1 ex_proto) (T "@one.a.b.f2") true = Some f /\ find_field (at_schema 0 ex_proto) (T "a.b.f2") true = Some f.
Proof.
  exists (nth 1 (ns_fields_list (ex_ns 0 ["a"; "b"])) dummy_field), (ex_schema 0).
  split; [exact ex_accepted|]. split; [vm_compute; reflexivity|]. split.
  - exists (ex_ns 0 ["a"; "b"]). split; [|apply (ex_in_ns _ _ 1); vm_compute; reflexivity].
    apply na_sub with (n := ex_ns 0 ["a"]); [apply (ex_in_ns _ _ 1); vm_compute; reflexivity|].
    apply na_here. apply (ex_in_ns _ _ 0). vm_compute. reflexivity.
  - do 4 (split; [vm_compute; reflexivity|]). vm_compute; reflexivity.
Qed.
(** nothing defined later is found: "g" belongs to the schema "two" *)
Example C27_ex_later : find_field (at_schema 0 ex_proto) (T "@two.g") true = None /\
  exists f, find_field (at_schema 1 ex_proto) (T "@two.g") true = Some f.
Proof. split; [vm_compute; reflexivity|]. eexists. vm_compute. reflexivity. Qed.
(** a field refers to one that is defined after it *)
Example C27_ex_forward : validate false no_stod [el "schema" [("name", "one")]
  [el "fields" [] [el "ref" [("name", "f"); ("field", "g")] []; el "int" [("name", "g"); ("type", "int8")] []]]] = Err.
Proof. vm_compute. reflexivity. Qed.
