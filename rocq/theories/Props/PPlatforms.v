(** C31: platforms of schemas and messages. *)
From Coq Require Import Sorting.Sorted Sorting.Permutation.
From Verif.Model Require Import Base Common Xml Units Field FieldCommon IntField EnumField SetField FloatField OptCond Composite Message Frame Protocol.
From Verif.Spec Require Import Texts IntSpec XmlSpec FieldSpec ProtocolSpec DeclSpec PlatformSpec Ex.
From Verif.Proofs Require Import BaseFacts CommonFacts RangeFacts XmlFacts MapFacts ProtocolFacts RefFacts DeclFacts AllFacts PlatFacts HeaderFacts.
From Verif.Props Require Import ExProtocol.
Local Open Scope string_scope. Local Open Scope Z_scope. Local Open Scope list_scope.

(** ** C31 *)
(** platforms="+a,b,...": exactly the listed ones, each of them declared *)
Theorem C31_plus : forall me n m w vs, message_parse me n = Ok m -> StronglySorted (fun a b => str_ltb a b = true) (me_platforms me) ->
  supplied n (T "platforms") ((T "+" ++ w) :: vs) ->
  (forall x, In x (m_platforms m) <-> x <> [] /\ item_of w x) /\ NoDup (m_platforms m) /\ m_platforms m <> [] /\
  incl (m_platforms m) (me_platforms me).
Proof.
  intros me n m w vs H S P. apply message_parse_steps in H as [st _].
  pose proof (supplied_det _ _ _ _ P (message_platforms_supplied _ _ _ st)) as E.
  pose proof (platforms_result _ _ _ _ (ms_platforms _ _ _ st) S) as R. rewrite find_values, <- E in R. cbn [hd_error] in R.
  destruct R as (w' & V & (x0 & X0) & D & Pl & _). assert (w' = w) as -> by (destruct V as [V|V]; [injection V as V; congruence|discriminate V]).
  destruct (Pl eq_refl) as [Srt I]. split; [|split; [apply lt_NoDup; exact Srt|split]].
  - intros x. rewrite I. split; [intros X; pose proof (D _ X) as [N _]; split; [exact N|apply items_spec; assumption]|]. intros [N X]. apply items_spec; assumption.
  - intros X. apply I in X0. rewrite X in X0. exact X0.
  - intros x X. apply I in X. apply D. exact X.
Qed.
Print Assumptions C31_plus.
(** platforms="-a,b,...": those declared (before the message) except the listed ones. Missing: reuse (refuted below) *)
Theorem C31_minus_partial : forall me n m w vs, message_parse me n = Ok m -> StronglySorted (fun a b => str_ltb a b = true) (me_platforms me) ->
  supplied n (T "platforms") ((T "-" ++ w) :: vs) -> supplied n (T "reuse") [] ->
  (forall x, In x (m_platforms m) <-> In x (me_platforms me) /\ ~ (x <> [] /\ item_of w x)) /\ NoDup (m_platforms m) /\ m_platforms m <> [] /\
  (forall x, x <> [] /\ item_of w x -> In x (me_platforms me)).
Proof.
  intros me n m w vs H S P U. apply message_parse_steps in H as [st _].
  pose proof (supplied_det _ _ _ _ P (message_platforms_supplied _ _ _ st)) as E.
  pose proof (platforms_result _ _ _ _ (ms_platforms _ _ _ st) S) as R. rewrite find_values, <- E in R. cbn [hd_error] in R.
  destruct R as (w' & V & _ & D & _ & Mi). assert (w' = w) as -> by (destruct V as [V|V]; [discriminate V|injection V as V; congruence]).
  destruct (Mi eq_refl) as (Ne & r & Er & Srt & I). rewrite (not_reused _ _ _ st U) in Er. cbn [app m_platforms empty_message] in Er.
  rewrite Er in *. split; [|split; [apply lt_NoDup; exact Srt|split; [exact Ne|]]].
  - intros x. rewrite I. split; intros [A B]; split; auto; intros C; apply B; [apply items_spec; apply C|].
    pose proof (D _ C) as [N _]. split; [exact N|apply items_spec; assumption].
  - intros x [N X]. apply D. apply items_spec; assumption.
Qed.
Print Assumptions C31_minus_partial.
(** no other form is accepted *)
Theorem C31_other_rejected : forall me n m v vs, message_parse me n = Ok m -> StronglySorted (fun a b => str_ltb a b = true) (me_platforms me) ->
  supplied n (T "platforms") (v :: vs) -> exists w x, (v = T "+" ++ w \/ v = T "-" ++ w) /\ x <> [] /\ item_of w x.
Proof.
  intros me n m v vs H S P. apply message_parse_steps in H as [st _].
  pose proof (supplied_det _ _ _ _ P (message_platforms_supplied _ _ _ st)) as E.
  pose proof (platforms_result _ _ _ _ (ms_platforms _ _ _ st) S) as R. rewrite find_values, <- E in R. cbn [hd_error] in R.
  destruct R as (w & V & (x & X) & D & _). exists w, x. split; [exact V|]. pose proof (D _ X) as [N _]. split; [exact N|]. apply items_spec; assumption.
Qed.
Print Assumptions C31_other_rejected.
(** without the property none is reported *)
Theorem C31_none : forall me n m, message_parse me n = Ok m -> StronglySorted (fun a b => str_ltb a b = true) (me_platforms me) ->
  supplied n (T "platforms") [] -> supplied n (T "reuse") [] -> m_platforms m = [].
Proof.
  intros me n m H S P U. apply message_parse_steps in H as [st _].
  pose proof (supplied_det _ _ _ _ P (message_platforms_supplied _ _ _ st)) as E.
  pose proof (platforms_result _ _ _ _ (ms_platforms _ _ _ st) S) as R. rewrite find_values, <- E in R. cbn [hd_error] in R.
  rewrite R, (not_reused _ _ _ st U). reflexivity.
Qed.
Print Assumptions C31_none.
(** the platforms a schema reports are sorted without repetition *)
Definition anything (_ : schema) : preds := mkPreds (fun _ => True) (fun _ => True) (fun _ => True) (fun _ => True).
Theorem C31_schema_sorted : forall multi stod docs s sc, validate multi stod docs = Ok s -> In sc (pr_schemas s) ->
  StronglySorted (fun a b => str_ltb a b = true) (sc_platforms sc) /\ NoDup (sc_platforms sc).
Proof.
  intros multi stod docs s sc H Hs. apply (validate_all anything) in H.
  - pose proof (st_all _ _ _ H) as A. rewrite Forall_forall in A. destruct (A _ Hs) as [_ S]. split; [exact S|apply lt_NoDup; exact S].
  - cbn. auto.
  - intros. repeat split.
Qed.
Print Assumptions C31_schema_sorted.
(** within one schema every platform a message reports is declared. Missing: several schemas (refuted below) *)
Theorem C31_declared_partial : forall stod docs s sc path m x, validate false stod docs = Ok s -> In sc (pr_schemas s) ->
  message_at sc path m -> In x (m_platforms m) -> In x (sc_platforms sc).
Proof.
  intros stod docs s sc path m x H Hs (n & Hn & Hm) Hx. apply (validate_all plats_in) in H; [|exact plats_later|exact plats_good].
  pose proof (st_all _ _ _ H) as A. rewrite Forall_forall in A. destruct (A _ Hs) as [B _]. pose proof (namespace_all _ _ _ _ B Hn) as C. inversion C as [? _ M _ _ _]; subst.
  apply by_name_In in Hm as [k Hm]. exact (M _ _ Hm _ Hx).
Qed.
Print Assumptions C31_declared_partial.
(** the platforms a schema reports are those its files declare *)
Theorem C31_schema_declared : forall multi stod docs s, validate multi stod docs = Ok s ->
  exists files, doc_schemas [] docs files /\ forall sc x, In sc (pr_schemas s) ->
    (In x (sc_platforms sc) <-> exists d, In (sc_name sc, d) files /\ declares_platform d x).
Proof.
  intros multi stod docs s H. apply validate_known in H as (files & D & K & _). exists files. split; [exact D|]. intros sc x Hs.
  rewrite Forall_forall in K. apply (kn_plats _ _ (K _ Hs)).
Qed.
Print Assumptions C31_schema_declared.

Definition plat_msg (name plats : string) : node := el "message" [("name", name); ("id", "0"); ("platforms", plats)] [].
Definition plat (x : string) : node := el "platform" [("name", x)] [].
(** reuse of a message: the platforms of "-x" are added to the reused ones, which repeats them *)
Definition ex_plat_reuse : list node :=
  [el "schema" [("name", "s"); ("nonUniqueMsgIdAllowed", "true")]
     [plat "a"; plat "b"; plat_msg "M1" "+a"; el "message" [("name", "M2"); ("id", "1"); ("reuse", "M1"); ("platforms", "-b")] []]].
Theorem C31_reuse_refuted : ~ (forall multi stod docs s sc p m, validate multi stod docs = Ok s -> In sc (pr_schemas s) ->
  message_at sc p m -> NoDup (m_platforms m)).
Proof.
  intros H. assert (V : exists s, validate false no_stod ex_plat_reuse = Ok s) by (eexists; vm_compute; reflexivity). destruct V as [s V].
  assert (exists sc n1 a b, pr_schemas s = [sc] /\ sc_ns sc = [([], n1)] /\ ns_messages_list n1 = [a; b] /\ m_platforms b = [T "a"; T "a"]) as (sc & n1 & a & b & E1 & E2 & E3 & E4).
  { vm_compute in V. injection V as <-. do 4 eexists. vm_compute. repeat split. }
  assert (X : NoDup (m_platforms b)).
  { apply (H false no_stod ex_plat_reuse s sc [[]] b V); [rewrite E1; left; reflexivity|]. exists n1. split; [constructor; rewrite E2; left; reflexivity|rewrite E3; right; left; reflexivity]. }
  rewrite E4 in X. inversion X as [|? ? N _]. apply N. left. reflexivity.
Qed.
Print Assumptions C31_reuse_refuted.
(** a message that reuses one of another schema reports platforms its own schema does not declare *)
Definition ex_plat_foreign : list node :=
  [el "schema" [("name", "s")] [plat "a"; plat_msg "M1" "+a"];
   el "schema" [("name", "t")] [el "message" [("name", "M2"); ("id", "1"); ("reuse", "@s.M1")] []]].
Theorem C31_declared_refuted : ~ (forall multi stod docs s sc path m x, validate multi stod docs = Ok s -> In sc (pr_schemas s) ->
  message_at sc path m -> In x (m_platforms m) -> In x (sc_platforms sc)).
Proof.
  intros H. assert (V : exists s, validate true no_stod ex_plat_foreign = Ok s) by (eexists; vm_compute; reflexivity). destruct V as [s V].
  assert (exists sc0 sc n1 a, pr_schemas s = [sc0; sc] /\ sc_ns sc = [([], n1)] /\ ns_messages_list n1 = [a] /\ m_platforms a = [T "a"] /\ sc_platforms sc = []) as (sc0 & sc & n1 & a & E1 & E2 & E3 & E4 & E5).
  { vm_compute in V. injection V as <-. do 4 eexists. vm_compute. repeat split. }
  assert (X : In (T "a") (sc_platforms sc)).
  { apply (H true no_stod ex_plat_foreign s sc [[]] a (T "a") V); [rewrite E1; right; left; reflexivity| |rewrite E4; left; reflexivity].
    exists n1. split; [constructor; rewrite E2; left; reflexivity|rewrite E3; left; reflexivity]. }
  rewrite E5 in X. exact X.
Qed.
Print Assumptions C31_declared_refuted.
(** "-a" leaves out the platforms a later file of the schema declares *)
Definition ex_plat_later : list node :=
  [el "schema" [("name", "s")] [plat "a"; plat "b"; plat_msg "M1" "-a"]; el "schema" [] [plat "c"]].
Theorem C31_minus_refuted : ~ (forall multi stod docs s sc path m d n w, validate multi stod docs = Ok s -> In sc (pr_schemas s) ->
  message_at sc path m -> In d docs -> In n (n_children d) -> n_name n = T "message" -> supplied n (T "name") [m_name m] ->
  supplied n (T "reuse") [] -> supplied n (T "platforms") [T "-" ++ w] ->
  forall x, In x (sc_platforms sc) -> ~ item_of w x -> In x (m_platforms m)).
Proof.
  intros H. assert (V : exists s, validate false no_stod ex_plat_later = Ok s) by (eexists; vm_compute; reflexivity). destruct V as [s V].
  assert (exists sc n1 a, pr_schemas s = [sc] /\ sc_ns sc = [([], n1)] /\ ns_messages_list n1 = [a] /\ m_name a = T "M1" /\ m_platforms a = [T "b"] /\ sc_platforms sc = [T "a"; T "b"; T "c"]) as (sc & n1 & a & E1 & E2 & E3 & E4 & E5 & E6).
  { vm_compute in V. injection V as <-. do 3 eexists. vm_compute. repeat split. }
  set (n := plat_msg "M1" "-a"). assert (P : parseChildrenAsProps n [T "name"; T "reuse"; T "platforms"] true (parseNodeProps n) = Ok [(T "name", T "M1"); (T "id", T "0"); (T "platforms", T "-a")]) by (vm_compute; reflexivity).
  assert (S : forall k, k <> [] -> In k [T "name"; T "reuse"; T "platforms"] -> supplied n k (values_of [(T "name", T "M1"); (T "id", T "0"); (T "platforms", T "-a")] k)) by (intros k; apply element_props_supplied; exact P).
  assert (X : In (T "c") (m_platforms a)).
  { apply (H false no_stod ex_plat_later s sc [[]] a (hd (TextNode []) ex_plat_later) n (T "a") V).
    - rewrite E1; left; reflexivity.
    - exists n1. split; [constructor; rewrite E2; left; reflexivity|rewrite E3; left; reflexivity].
    - left. reflexivity.
    - right. right. left. reflexivity.
    - reflexivity.
    - rewrite E4. apply (S (T "name")); [discriminate|left; reflexivity].
    - apply (S (T "reuse")); [discriminate|right; left; reflexivity].
    - apply (S (T "platforms")); [discriminate|right; right; left; reflexivity].
    - rewrite E6. right. right. left. reflexivity.
    - intros I. apply items_spec in I; [|discriminate]. vm_compute in I. destruct I as [I|[]]. discriminate I. }
  rewrite E5 in X. destruct X as [X|[]]. discriminate X.
Qed.
Print Assumptions C31_minus_refuted.
(** the theorems above apply: three declared platforms, each form of the property *)
Definition ex_plats : list node :=
  [el "schema" [("name", "s"); ("nonUniqueMsgIdAllowed", "true")]
     [el "platforms" [] [plat "b"; plat "a"]; plat "c"; plat "b"; el "message" [("name", "P"); ("id", "0"); ("platforms", "+c, a,c")] [];
      el "message" [("name", "Q"); ("id", "1"); ("platforms", "-c")] []; el "message" [("name", "R"); ("id", "2")] []]].
Example C31_ex : match validate false no_stod ex_plats with
  | Ok s => match pr_schemas s with [sc] => (sc_platforms sc, map m_platforms (all_messages sc)) | _ => ([], []) end
  | _ => ([], []) end = ([T "a"; T "b"; T "c"], [[T "a"; T "c"]; [T "a"; T "b"]; []]).
Proof. vm_compute. reflexivity. Qed.
Example C31_ex_rejected : map (fun p => is_Ok (validate false no_stod [el "schema" [("name", "s")] [plat "a"; plat "b"; plat_msg "M" p]]))
  ["+a"; "-a"; "+"; "a"; "+c"; "-c"; "-a,b"] = [true; true; false; false; false; false; false].
Proof. vm_compute. reflexivity. Qed.
