(** C06, C07, C22: what holds for fields of every kind. *)
From Verif.Model Require Import Base Common Xml Units Field FieldCommon Composite.
From Verif.Spec Require Import Texts Versions IntSpec XmlSpec FieldSpec Ex.
From Verif.Proofs Require Import BaseFacts CommonFacts XmlFacts FieldInv FieldFacts OwnFacts SingleFacts ExFacts.
From Verif.Props Require Import PInt.
Local Open Scope string_scope. Local Open Scope Z_scope. Local Open Scope list_scope.

(** ** C06 *)
(** the properties below are the ones listed in the documentation for every field ... *)
Example C06_common_list : common_single = map L
  ["name"; "displayName"; "description"; "sinceVersion"; "deprecated"; "removed"; "reuse"; "semanticType"; "pseudo";
   "fixedValue"; "customizable"; "failOnInvalid"; "forceGen"; "valueOverride"; "readOverride"; "writeOverride";
   "refreshOverride"; "lengthOverride"; "validOverride"; "nameOverride"; "copyCodeFrom"; "validateMinLength"]%string.
Proof. reflexivity. Qed.
(** ... and for each kind, all checked to be supplied at most once, as attribute or child
    element ([supplied], Spec/XmlSpec.v).
    Missing: defaultValue and reservedValue of <set> (see C06_set_default_twice_refuted) *)
Theorem C06_supplied_at_most_once_partial : forall fuel e x n f s, field_parse fuel e x n = Ok f ->
  In s (common_single ++ kind_single (f_kind f)) -> exists vs, supplied n s vs /\ (length vs <= 1)%nat.
Proof. exact field_single. Qed.
Print Assumptions C06_supplied_at_most_once_partial.
Theorem C06_second_value_rejected_partial : forall fuel e x n k s v w vs, assoc (n_name n) kind_names = Some k ->
  In s (common_single ++ kind_single k) -> supplied n s (v :: w :: vs) ->
  forall f, field_parse fuel e x n <> Ok f.
Proof.
  intros fuel e x n k s v w vs Hk Hs Hv f H.
  pose proof H as H'. apply field_parse_inv in H' as (fuel' & k' & p & c0 & old & repl & c & _ & Hk' & _ & _ & _ & _ & Hkp & _).
  pose proof (kind_parse_common _ _ _ _ _ _ _ _ _ _ _ Hkp) as (K & _). rewrite Hk in Hk'. injection Hk' as <-.
  rewrite <- K in Hs. destruct (field_single _ _ _ _ _ _ H Hs) as (vs' & S & N).
  rewrite (supplied_det _ _ _ _ S Hv) in N. cbn in N. lia.
Qed.
Print Assumptions C06_second_value_rejected_partial.
(** what is supplied is used: names; versions are in C07, the properties of <int> in C01, C08-C14 *)
Theorem C06_supplied_name_is_used : forall fuel e x n f v, field_parse fuel e x n = Ok f ->
  supplied n (T "name") [v] -> v <> [] -> f_name f = v.
Proof. exact field_name_used. Qed.
Print Assumptions C06_supplied_name_is_used.
(** <int name="a" type="uint8"/> and <int><name> a </name><type value="uint8"/></int> *)
Example C06_ex : exists f, ex_global [] (el "int" [("name", "a"); ("type", "uint8")] []) = Ok f /\
  ex_global [] (el "int" [] [text_el "name" " a "; el "type" [("value", "uint8")] []]) = Ok f /\
  f_name f = L "a" /\
  ex_global [] (el "int" [("name", "a"); ("type", "uint8")] [text_el "name" "a"]) = Err /\
  supplied (el "int" [("name", "a"); ("type", "uint8")] [text_el "name" "a"]) (L "name") [L "a"; L "a"].
Proof.
  by_eval E. split; [vm_compute; reflexivity|]. split; [reflexivity|]. split; [vm_compute; reflexivity|].
  pose proof (element_props_supplied (el "int" [("name", "a"); ("type", "uint8")] [text_el "name" "a"]) [L "name"]
    [(L "name", L "a"); (L "type", L "uint8"); (L "name", L "a")] (L "name") eq_refl) as H.
  apply H; [discriminate|left; reflexivity].
Qed.

(** ** C07 *)
(** the versions of a member: as written or inherited from its parent, and consistent with it *)
Theorem C07_versions_of_a_member : forall fuel e x n f, field_parse fuel e x n = Ok f -> member_parent x -> x_depr x <= never ->
  exists ss ds, supplied n (T "sinceVersion") ss /\ supplied n (T "deprecated") ds /\
    version_text (hd_error ss) (x_since x) (c_since (f_common f)) /\
    version_text (hd_error ds) (x_depr x) (c_deprecated (f_common f)) /\
    consistent_versions (e_version e) (x_since x) (x_depr x) (c_since (f_common f)) (c_deprecated (f_common f)).
Proof.
  intros fuel e x n f H M D. apply field_versions in H as (ss & ds & S1 & S2 & A & _).
  destruct (A M) as (B & C & V). exists ss, ds. auto 10.
Qed.
Print Assumptions C07_versions_of_a_member.
Theorem C07_global_fields_have_no_versions : forall fuel e x n f, field_parse fuel e x n = Ok f -> ~ member_parent x ->
  c_since (f_common f) = 0 /\ c_deprecated (f_common f) = never.
Proof. intros fuel e x n f H M. apply field_versions in H as (ss & ds & _ & _ & _ & A). auto. Qed.
Print Assumptions C07_global_fields_have_no_versions.
(** at every depth of an element that reuses nothing. Missing: reuse, see below *)
Theorem C07_versions_at_every_depth_partial : forall fuel e x n f, without_reuse n -> x_depr x <= never ->
  field_parse fuel e x n = Ok f -> forall g m, inside g f -> In m (own_parts g) ->
  consistent_versions (e_version e) (c_since (f_common g)) (c_deprecated (f_common g))
                      (c_since (f_common m)) (c_deprecated (f_common m)).
Proof. intros fuel e x n f W D H. exact (own_versions e fuel x n f W D H). Qed.
Print Assumptions C07_versions_at_every_depth_partial.
(** also with reuse the direct members are not older than the field *)
Theorem C07_members_not_older_partial : forall fuel e x n f m, field_parse fuel e x n = Ok f -> x_depr x <= never ->
  In m (f_members f) -> c_since (f_common f) <= c_since (f_common m).
Proof. exact member_versions. Qed.
Print Assumptions C07_members_not_older_partial.

Definition ex_bundle : node :=
  el "bundle" [("name", "B"); ("sinceVersion", "2")]
   [el "int" [("name", "a"); ("type", "uint8")] [];
    el "bundle" [("name", "b"); ("sinceVersion", "3"); ("deprecated", "7")]
      [el "int" [("name", "c"); ("type", "uint8"); ("deprecated", "5"); ("removed", "true")] []; el "int" [("name", "d"); ("type", "uint8")] []]].
Example C07_ex : exists f, parse_field (ex_fenv []) (message_ctx 1 9) ex_bundle = Ok f /\ without_reuse ex_bundle /\
  c_since (f_common f) = 2 /\ c_deprecated (f_common f) = 9 /\
  (exists g m, inside g f /\ In m (own_parts g) /\ c_since (f_common g) = 3 /\ c_deprecated (f_common m) = 5) /\
  parse_field (ex_fenv []) (message_ctx 3 9) ex_bundle = Err /\ parse_field (ex_fenv []) (message_ctx 1 6) ex_bundle = Err.
Proof.
  by_eval E. split.
  { apply reuse_free_spec. vm_compute. reflexivity. }
  split; [reflexivity|]. split; [reflexivity|]. split.
  { eexists _, _. split; [eapply inside_own; [right; left; reflexivity|apply inside_self]|]. split; [left; reflexivity|]. split; reflexivity. }
  split; vm_compute; reflexivity.
Qed.
(** a message of version 4 .. 9 that reuses the global bundle above *)
Definition ex_g := got_field (ex_global [] (el "bundle" [("name", "G")]
   [el "int" [("name", "a"); ("type", "uint8"); ("deprecated", "3")] [];
    el "bundle" [("name", "b")] [el "int" [("name", "c"); ("type", "uint8")] []]; el "int" [("name", "d"); ("type", "uint8")] []])).
Example ex_g_accepted : accepted ex_g.
Proof. unfold ex_g. ex_acc. Qed.
(** a reused member may end before the version its new parent begins with, and the members of
    reused members keep versions before it *)
Theorem C07_reused_members_refuted : exists f a b c,
  parse_field (ex_fenv [("G", ex_g)]) (message_ctx 4 9) (el "bundle" [("name", "f"); ("reuse", "G")] []) = Ok f /\
  accepted f /\ c_since (f_common f) = 4 /\ f_members f = [a; b; c] /\
  c_since (f_common a) = 4 /\ c_deprecated (f_common a) = 3 /\
  c_since (f_common b) = 4 /\ exists d, f_members b = [d] /\ c_since (f_common d) = 0.
Proof.
  destruct (parse_field (ex_fenv [("G", ex_g)]) (message_ctx 4 9) (el "bundle" [("name", "f"); ("reuse", "G")] [])) as [f| |] eqn:E;
    try (vm_compute in E; discriminate).
  pose proof (ex_accepted _ _ _ _ (Forall_cons ("G"%string, ex_g) ex_g_accepted (Forall_nil _)) E) as A.
  vm_compute in E. injection E as E. subst f. eexists _, _, _, _. split; [vm_compute; reflexivity|]. split; [exact A|].
  repeat split. eexists. split; reflexivity.
Qed.
Print Assumptions C07_reused_members_refuted.

(** ** C22 *)
(** every bundle, bitfield and variant an accepted field consists of, at any depth *)
Theorem C22_member_names : forall f g, accepted f -> part_of g f ->
  NoDup (map f_name (f_members g)) /\ Forall (fun m => identifier (f_name m)) (f_members g) /\ identifier (f_name g).
Proof.
  intros f g A P. split; [|split].
  - exact (all_part_of _ _ _ (accepted_distinct _ A) P).
  - apply Forall_forall. intros m Hm. apply parseIsValidName_spec.
    assert (part_of m f). { eapply part_of_trans; [|exact P]. apply part_of_parts. destruct g; cbn in *; auto; contradiction. }
    exact (all_part_of _ _ _ (accepted_names _ A) H).
  - apply parseIsValidName_spec. exact (all_part_of _ _ _ (accepted_names _ A) P).
Qed.
Print Assumptions C22_member_names.
Example C22_ex : accepted ex_g /\ map f_name (f_members ex_g) = [L "a"; L "b"; L "d"] /\
  ex_global [] (el "bundle" [("name", "G")] [el "int" [("name", "a"); ("type", "uint8")] []; el "float" [("name", "a"); ("type", "float")] []]) = Err /\
  ex_global [] (el "bundle" [("name", "G")] [el "int" [("name", "1a"); ("type", "uint8")] []]) = Err /\
  ex_global [("G", ex_g)]%string (el "bundle" [("name", "H"); ("reuse", "G")] [el "int" [("name", "d"); ("type", "uint8")] []]) = Err.
Proof. split; [exact ex_g_accepted|]. vm_compute. auto. Qed.
