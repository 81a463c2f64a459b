(** Properties C46, C47, C49-C53: what the COMMS generator writes for integer
    fields and the namespaces it puts definitions in. *)
From Coq Require Import Sorted ZifyBool.
From Verif.Model Require Import Base Common Xml Units Field FieldCommon IntField GenUtil GenComms CommsInt.
From Verif.Spec Require Import Texts Ints Versions IntSpec GenSpec NameSpec HeaderSpec CppSpec FactorySpec.
From Verif.Proofs Require Import BaseFacts CommonFacts IntFacts RangeFacts IntInv GenFacts NameFacts CommsIntFacts CommsOptFacts NsFacts FactoryFacts.
From Verif.Props Require Import PInt PGen.
Local Open Scope string_scope. Local Open Scope Z_scope. Local Open Scope list_scope.

(** ** C46 *)
(** The namespaces opened in front of a definition are closed behind it, in reverse order. *)
Theorem C46_balanced : forall top main p, exists names, nested names (genNamespaceBeginFor top main p) (genNamespaceEndFor top main p).
Proof. intros top main p. exists (path_namespaces top main p). apply namespaces_nested. Qed.
Print Assumptions C46_balanced.
(** For a global field, message, interface or frame they are (below the configured top
    namespace) those the generated code refers to it with. *)
Theorem C46_scope : forall top main path t name, In t [EField; EMessage; EInterface; EFrame] ->
  main <> [] -> path <> [] -> identifier name ->
  let p := parents_of path t name in
  exists names, nested (opt_name top ++ names) (genNamespaceBeginFor top main p) (genNamespaceEndFor top main p) /\
    genScopeFor main p = join (T "::") (names ++ [genClassName name]).
Proof.
  intros top main path t name Ht Hm Hp Hn p.
  assert (G : global_kind t) by (cbn in Ht; repeat destruct Ht as [<-|Ht]; try contradiction; exact I).
  exists (main :: ns_parts path ++ folder t). split.
  - pose proof (namespaces_nested top main p) as N. unfold p, parents_of in *. cbn [path_namespaces] in N. rewrite path_ns in N.
    replace (type_namespaces t (rev (map (fun k => (ENamespace, k)) path)) ++ match t with ENamespace => opt_name name | _ => [] end) with (folder t) in N.
    + rewrite <- app_assoc in N. exact N.
    + unfold type_namespaces. rewrite (parent_ns _ Hp). destruct t; try contradiction; reflexivity.
  - unfold genScopeFor. cbn [elem_leaf parents_of p]. unfold p. rewrite (global_parts true _ path t name G Hp); [|now apply parseIsValidName_spec].
    unfold opt_name. destruct main as [|c0 m0]; [congruence|]. cbn [is_nil]. cbn [app]. rewrite <- app_assoc.
    generalize ((c0 :: m0) :: ns_parts path ++ folder t ++ [genClassName name]). intros l. clear.
    induction l as [|w l IH]; [reflexivity|]. destruct l as [|w2 l]; [reflexivity|]. cbn [join_parts join] in *. now rewrite IH.
Qed.
Print Assumptions C46_scope.
(** A field inside a message, an interface or a global field, at any depth: the class is a
    member of the structs of the fields of the elements around it. *)
Definition members_struct (t : elem_type) (name : txt) : txt :=
  match t with
  | EMessage => capital name ++ T "Fields"
  | EInterface => (if not_empty name then capital name else T "Message") ++ T "Fields"
  | _ => capital name ++ T "Members"
  end.
Lemma inner_parts main q t name ks : q <> [] -> In t [EField; EMessage; EInterface] ->
  scope_parts true main EField false (rev (map (fun k => (EField, k)) ks) ++ parents_of q t name) =
  main ++ filter not_empty q ++ folder t ++ [members_struct t name] ++ map (fun k => capital k ++ T "Members") ks.
Proof.
  intros Q Ht. induction ks as [|k ks IH] using rev_ind.
  - cbn [map rev app]. unfold parents_of. cbn [scope_parts]. rewrite rev_ns, ns_parts_filter. unfold elem_ns_scope. rewrite (parent_ns _ Q). rewrite <- !app_assoc.
    cbn in Ht. repeat destruct Ht as [<-|Ht]; try contradiction; cbn; rewrite ?app_nil_r; try reflexivity. destruct name; reflexivity.
  - rewrite map_app, rev_app_distr. cbn [map rev app scope_parts]. rewrite IH, map_app. cbn [map]. rewrite <- !app_assoc. do 3 f_equal. cbn [app]. f_equal. f_equal.
    assert (P : parent_is_namespace (rev (map (fun k => (EField, k)) ks) ++ parents_of q t name) = false).
    { destruct ks as [|x ks'] using rev_ind; [cbn; cbn in Ht; repeat destruct Ht as [<-|Ht]; try contradiction; reflexivity|]. rewrite map_app, rev_app_distr. reflexivity. }
    unfold elem_ns_scope. rewrite P. reflexivity.
Qed.
Theorem C46_member_scope : forall main q t name ks f, main <> [] -> q <> [] -> In t [EField; EMessage; EInterface] ->
  genScopeFor main ((EField, f) :: rev (map (fun k => (EField, k)) ks) ++ parents_of q t name) =
  join (T "::") (main :: filter not_empty q ++ folder t ++ [members_struct t name] ++ map (fun k => capital k ++ T "Members") ks ++ [capital f]).
Proof.
  intros main q t name ks f M Q Ht. unfold genScopeFor. cbn [elem_leaf scope_parts]. rewrite (inner_parts _ q t name ks Q Ht), join_parts_join.
  assert (P : parent_is_namespace (rev (map (fun k => (EField, k)) ks) ++ parents_of q t name) = false).
  { destruct ks as [|x ks'] using rev_ind; [cbn; cbn in Ht; repeat destruct Ht as [<-|Ht]; try contradiction; reflexivity|]. rewrite map_app, rev_app_distr. reflexivity. }
  unfold elem_ns_scope. rewrite P. unfold opt_name. destruct main as [|c0 m0]; [congruence|]. cbn [is_nil app]. rewrite <- !app_assoc. cbn [app field_suffix andb]. rewrite app_nil_r. reflexivity.
Qed.
Print Assumptions C46_member_scope.
Example C46_member_ex : genScopeFor (L "proto") [(EField, L "x"); (EField, L "inner"); (EInterface, []); (ENamespace, L "a")] = L "proto::a::MessageFields::InnerMembers::X".
Proof. vm_compute. reflexivity. Qed.
Example C46_ex : let p := parents_of [L "a"; L "b"] EMessage (L "msg") in
  genNamespaceBeginFor [] (L "proto") p = open_ns (L "proto") ++ open_ns (L "a") ++ open_ns (L "b") ++ open_ns (L "message") /\
  genScopeFor (L "proto") p = L "proto::a::b::message::Msg".
Proof. vm_compute. auto. Qed.

(** ** C47 *)
(** The C++ value type chosen for an integer field holds every value the parser reports for it *)
Theorem C47_type_holds_values_partial : forall s, int_reachable s -> i_serOffset s = 0 ->
  forall v, reported_range (i_type s) (i_min s) (i_max s) v -> cpp_holds (genCppIntTypeFor (i_type s) (i_length s)) v.
Proof.
  intros s R E v H. apply (C08_limits_are_serialisable_values s R E) in H. apply int_reachable_inv in R.
  eapply cpp_type_wire; [exact (inv_bits _ R)|exact H].
Qed.
Print Assumptions C47_type_holds_values_partial.
(** the bytes on the wire fit into it as well, whatever the offset *)
Theorem C47_type_holds_wire : forall s, int_reachable s ->
  forall v, wire_values (i_type s) (i_length s) (i_bitLength s) v -> cpp_holds (genCppIntTypeFor (i_type s) (i_length s)) v.
Proof. intros s R v H. apply int_reachable_inv in R. eapply cpp_type_wire; [exact (inv_bits _ R)|exact H]. Qed.
Print Assumptions C47_type_holds_wire.
(** a default value of a short variable length integer may not fit: uintvar of 2 bytes, default 100000 *)
Theorem C47_default_refuted : exists s, ex_int [("type", "uintvar"); ("length", "2"); ("defaultValue", "100000")] [] None = Ok s /\
  int_reachable s /\ i_serOffset s = 0 /\ genCppIntTypeFor (i_type s) (i_length s) = T "std::uint16_t" /\
  stands_for (i_type s) (i_default s) 100000 /\ ~ cpp_holds (T "std::uint16_t") 100000.
Proof.
  by_eval E. split; [exact (ex_reach _ _ _ _ E)|]. split; [reflexivity|]. split; [reflexivity|]. split; [reflexivity|].
  intros H. destruct (cpp_bits (T "std::uint16_t") _ 16 ltac:(cbn; tauto) H) as [_ [[I _]|[_ B]]].
  - cbn [signed_cpp In] in I. repeat destruct I as [I|I]; try contradiction; discriminate I.
  - unfold unsigned_bits in B. lia.
Qed.
Print Assumptions C47_default_refuted.
(** with serOffset the values need not fit: int8 with offset 100 is reported as -228 .. 27 *)
Theorem C47_offset_refuted : exists s, ex_int [("type", "int8"); ("serOffset", "100")] [] None = Ok s /\ int_reachable s /\
  reported_range (i_type s) (i_min s) (i_max s) (-228) /\ genCppIntTypeFor (i_type s) (i_length s) = T "std::int8_t" /\ ~ cpp_holds (T "std::int8_t") (-228).
Proof.
  by_eval E. split; [exact (ex_reach _ _ _ _ E)|].
  split; [eexists _, _; split; [reflexivity|split; [reflexivity|cbn; lia]]|]. split; [reflexivity|].
  intros H. destruct (cpp_bits (T "std::int8_t") _ 8 ltac:(cbn; tauto) H) as [_ [[_ B]|[I _]]].
  - unfold signed_bits in B. lia.
  - cbn [unsigned_cpp In] in I. repeat destruct I as [I|I]; try contradiction; discriminate I.
Qed.
Print Assumptions C47_offset_refuted.

(** ** C49 *)
(** a plain environment to generate in: schema version 5, peers since version 0, no
    version dependent code *)
Definition plain_ge : gen_env := mkGE (mkGV 5 None 0) false.
Definition plain_fs : field_settings := mkFS true None false false false [] false false false false.
Definition gen_opts (ge : gen_env) (s : int_state) : res (list str) := int_def_opts ge plain_fs (ex_common 0 false) s false.
(** Serialisation offset, display offset and scaling ratio are passed on as written by
    the parser: an option with these numbers, or none if it would have no effect. *)
Theorem C49_offsets : forall ge x c s o, int_reachable s -> int_def_opts ge x c s false = Ok o ->
  option_numbers o (T "NumValueSerOffset") [0] [i_serOffset s] /\
  (is64 (i_displayOffset s) -> option_numbers o (T "DisplayOffset") [0] [i_displayOffset s]).
Proof.
  intros ge x c s o R H. apply int_reachable_inv in R. split; [|intros D].
  - eapply ser_numbers; [exact (inv_so _ R)|exact H].
  - eapply display_numbers; eauto.
Qed.
Print Assumptions C49_offsets.
Theorem C49_scaling : forall ge x c s o n d, i_scaling s = (n, d) -> is64 n -> is64 d -> n <> 0 -> d <> 0 ->
  int_def_opts ge x c s false = Ok o -> option_numbers o (T "ScalingRatio") [1; 1] [n; d].
Proof. intros. eapply scaling_numbers; eauto. Qed.
Print Assumptions C49_scaling.
Lemma known_units v u : parseStrToUnits v = Some u -> In u (map fst units_options).
Proof.
  unfold parseStrToUnits. intro E. apply assoc_In in E. assert (F : forallb (fun kv => mem_str (snd kv) (map fst units_options)) units_table = true) by (vm_compute; reflexivity).
  rewrite forallb_forall in F. apply F in E. now apply mem_str_In in E.
Qed.
Lemma reach_units s : int_reachable s -> In (i_units s) (map fst units_options).
Proof.
  assert (G : forall e c p n old s, (forall o, old = Some o -> In (i_units o) (map fst units_options)) -> int_parse e c p n old = Ok s -> In (i_units s) (map fst units_options)).
  { clear s. intros e c p n old s O H. unfold int_parse in H.
    apply bind_Ok in H as (t & H1 & H). apply bind_Ok in H as (en & H2 & H). apply bind_Ok in H as (len & H3 & H). apply bind_Ok in H as (bits & H4 & H).
    apply bind_Ok in H as (sc & H5 & H). apply bind_Ok in H as (so & H6 & H). apply bind_Ok in H as ([[[tmin tmax] mn] mx] & H7 & H).
    apply bind_Ok in H as (nonU & H8 & H). apply bind_Ok in H as ([sps seen] & H9 & H). apply bind_Ok in H as (d1 & H10 & H). apply bind_Ok in H as ([d2 rs] & H11 & H).
    apply bind_Ok in H as (vcv & H12 & H). apply bind_Ok in H as (new & H13 & H). apply bind_Ok in H as (rs' & H14 & H). apply bind_Ok in H as (units & H15 & H).
    apply bind_Ok in H as (dec & H16 & H). apply bind_Ok in H as (doff & H17 & H). apply bind_Ok in H as (sext & H18 & H). apply bind_Ok in H as (lim & H19 & H). apply Ok_inj in H. subst s.
    cbn [i_units]. unfold update_units in H15. apply bind_Ok in H15 as (w & _ & H15). destruct (find_prop p (L "units")) as [v|].
    - apply of_opt_Ok in H15. now apply known_units in H15.
    - apply Ok_inj in H15. subst units. destruct old as [o|]; [now apply O|]. apply (nth_error_In _ 0). reflexivity. }
  induction 1 as [e c p n s En H|e c p n o s En R IH H]; (eapply G; [|exact H]); [discriminate|]. intros o' [= <-]. exact IH.
Qed.
(** There is at most one units option; it is named (but for the case of letters) after the
    units the parser reports and missing only if there are none. *)
Theorem C49_units : forall ge x c s o, int_reachable s -> int_def_opts ge x c s false = Ok o ->
  (forall u, In (plain_option (T "Units" ++ u)) o -> caseless (i_units s) u /\ forall u', In (plain_option (T "Units" ++ u')) o -> u' = u) /\
  ((exists u, In (plain_option (T "Units" ++ u)) o) <-> i_units s <> T "Unknown").
Proof.
  intros ge x c s o U H. apply reach_units in U. apply opts_sources in H as (ls & ld & lc & lf & S).
  assert (Su : forall u, In (plain_option (T "Units" ++ u)) o <-> genParseUnitsToOpt (i_units s) = plain_option (T "Units" ++ u)) by exact (so_units _ _ _ _ _ _ _ _ S).
  assert (F : forall k, In k (map fst units_options) -> (k = T "Unknown" /\ genParseUnitsToOpt k = []) \/
     (k <> T "Unknown" /\ exists u, genParseUnitsToOpt k = plain_option (T "Units" ++ u) /\ caseless k u)).
  { clear. intros k Hk. cbn [map fst units_options In] in Hk. destruct Hk as [<-|Hk]; [left; split; reflexivity|].
    repeat (destruct Hk as [<-|Hk]; [right; split; [discriminate|]; eexists; split; [vm_compute; reflexivity|]; repeat first [apply Forall2_nil|apply Forall2_cons; [first [left; reflexivity|right; exists 7%nat; split; reflexivity]|]]|]).
    contradiction. }
  destruct (F _ U) as [[E G]|[E (u & G & Cu)]]; rewrite G in Su.
  - split; [intros u K; apply Su in K; discriminate K|]. split; [intros [u K]; apply Su in K; discriminate K|congruence].
  - split; [|split; [intros _; exact E|intros _; exists u; now apply Su]]. intros u1 K. apply Su in K. do 2 apply app_inv_head in K. subst u1.
    split; [exact Cu|]. intros u' K. apply Su in K. do 2 apply app_inv_head in K. now symmetry.
Qed.
Print Assumptions C49_units.
(** options are produced for every field none of whose numbers is at the end of the 64 bit domain *)
Theorem C49_generated_partial : forall ge x c s vk,
  let inner z := - 2 ^ 63 < z < 2 ^ 63 - 1 in
  inner (i_serOffset s) -> inner (i_displayOffset s) -> inner (fst (i_scaling s)) -> inner (snd (i_scaling s)) -> inner (i_default s) ->
  Forall (fun r => inner (r_min r) /\ inner (r_max r)) (i_ranges s) -> exists o, int_def_opts ge x c s vk = Ok o.
Proof. intros. now apply int_def_opts_Ok. Qed.
Print Assumptions C49_generated_partial.
(** the smallest 64 bit number as default value overflows while it is printed *)
Theorem C49_generated_refuted : exists s, ex_int [("type", "int64"); ("defaultValue", "-9223372036854775808")] [] None = Ok s /\ gen_opts plain_ge s = UB.
Proof. by_eval E. vm_compute. reflexivity. Qed.
Print Assumptions C49_generated_refuted.
Example C49_ex : exists s, ex_int [("type", "int16"); ("serOffset", "-15"); ("scaling", "1/10"); ("units", "mm"); ("defaultValue", "3")] [] None = Ok s /\
  int_reachable s /\ gen_opts plain_ge s = Ok (map L ["TExtraOpts..."; "comms::option::def::NumValueSerOffset<-15>"; "comms::option::def::ScalingRatio<1, 10>";
     "comms::option::def::UnitsMillimeters"; "comms::option::def::DefaultNumValue<3>"]) /\ In (i_units s) (map fst units_options).
Proof. by_eval E. split; [exact (ex_reach _ _ _ _ E)|]. split; [vm_compute; reflexivity|]. vm_compute. tauto. Qed.

(** ** C50 *)
(** The bounds of the valid ranges mean the same number to the parser and to the
    generator: either the type decides how they are read or they are not negative. *)
Definition clear_bounds (s : int_state) : Prop :=
  i_type s = Uint64 \/ (i_type s <> Uintvar /\ i_length s < 8) \/ Forall (fun r => 0 <= r_min r /\ 0 <= r_max r) (i_ranges s).
(** Without version dependent checks the generated class takes a value as valid exactly
    if no ranges are given or one of them covers it. *)
Theorem C50_valid_partial : forall ge x c s o, int_reachable s -> clear_bounds s -> int_def_opts ge x c s false = Ok o ->
  (ge_versionDependent ge = false \/ i_validCheckVersion s = false) ->
  (forall r, In r (i_ranges s) -> exists w, supported (ge_ver ge) w /\ present_at (r_since r) (r_depr r) true w) ->
  forall v, base_valid o v <-> i_ranges s = [] \/ exists r, In r (i_ranges s) /\ reported_range (i_type s) (r_min r) (r_max r) v.
Proof.
  intros ge x c s o R C H V Ex. apply int_reachable_inv in R. apply (valid_all_versions ge x c s o R C); auto.
  - unfold valid_check_version. destruct V as [-> | ->]; [reflexivity|apply andb_false_r].
  - apply Forall_forall. intros r Hr. destruct (Ex r Hr) as (w & [S1 S2] & [P1 P2]). specialize (P2 eq_refl).
    unfold genDoesElementExist. replace (genSchemaVersion (ge_ver ge) <? r_since r) with false by lia.
    now replace (r_depr r <=? gv_min_remote (ge_ver ge)) with false by lia.
Qed.
Print Assumptions C50_valid_partial.
(** More generally, only the ranges of the generated versions count, provided that ranges of
    different versions neither overlap nor touch. *)
Definition leaves_gap (t : int_type) (a b : vrange) : Prop :=
  forall x y, stands_for t (r_max a) x -> stands_for t (r_min b) y -> x + 1 < y.
Definition generated_range (g : gen_versions) (r : vrange) : Prop := exists w, supported g w /\ present_at (r_since r) (r_depr r) true w.
Lemma generated_exists g r : gv_min_remote g <= genSchemaVersion g -> r_since r < r_depr r ->
  genDoesElementExist g (r_since r) (r_depr r) true = true <-> generated_range g r.
Proof.
  intros M D. unfold genDoesElementExist, generated_range, supported, present_at. cbn [andb]. split.
  - intros H. exists (Z.max (gv_min_remote g) (r_since r)). destruct (genSchemaVersion g <? r_since r) eqn:E; [discriminate|].
    destruct (r_depr r <=? gv_min_remote g) eqn:E'; [discriminate|]. lia.
  - intros (w & [S1 S2] & P1 & P2). specialize (P2 eq_refl). replace (genSchemaVersion g <? r_since r) with false by lia.
    replace (r_depr r <=? gv_min_remote g) with false by lia. reflexivity.
Qed.
Theorem C50_valid_apart_partial : forall ge x c s o, int_reachable s -> clear_bounds s -> int_def_opts ge x c s false = Ok o ->
  (ge_versionDependent ge = false \/ i_validCheckVersion s = false) ->
  gv_min_remote (ge_ver ge) <= genSchemaVersion (ge_ver ge) ->
  (forall r, In r (i_ranges s) -> r_since r < r_depr r) ->
  (forall a b, In a (i_ranges s) -> In b (i_ranges s) ->
     (r_since a = r_since b /\ r_depr a = r_depr b) \/ leaves_gap (i_type s) a b \/ leaves_gap (i_type s) b a) ->
  (exists r v, In r (i_ranges s) /\ generated_range (ge_ver ge) r /\ reported_range (i_type s) (r_min r) (r_max r) v) ->
  forall v, base_valid o v <->
    exists r, In r (i_ranges s) /\ generated_range (ge_ver ge) r /\ reported_range (i_type s) (r_min r) (r_max r) v.
Proof.
  intros ge x c s o R C H V M D A N v. apply int_reachable_inv in R.
  assert (Vc : valid_check_version ge s = false) by (unfold valid_check_version; destruct V as [-> | ->]; [reflexivity|apply andb_false_r]).
  rewrite (valid_apart ge x c s o R C Vc H).
  - split; intros (r & I & E & Q); exists r; (split; [exact I|]); (split; [|exact Q]); apply (generated_exists _ _ M (D r I)); exact E.
  - intros a b Ia Ib. destruct (A a b Ia Ib) as [[E1 E2]|Q]; [left; now rewrite E1, E2|right; exact Q].
  - destruct N as (r & u & I & E & Q). exists r. split; [exact I|]. split; [apply (generated_exists _ _ M (D r I)); exact E|exists u; exact Q].
Qed.
Print Assumptions C50_valid_apart_partial.
(** With version dependent checks a value is valid in version [w] exactly if some range
    which that version has covers it. *)
Theorem C50_valid_in_version_partial : forall ge x c s o checks, int_reachable s -> clear_bounds s ->
  int_def_opts ge x c s false = Ok o -> valid_checks ge s = Ok checks ->
  ge_versionDependent ge = true -> i_validCheckVersion s = true ->
  let g := ge_ver ge in
  let ty := genCppIntTypeFor (i_type s) (i_length s) in
  0 <= gv_min_remote g -> genSchemaVersion g < never ->
  (forall r, In r (i_ranges s) -> 0 <= r_since r /\ r_since r < r_depr r <= never /\
     (r_since r <= gv_min_remote g -> r_depr r = never) /\
     forall z, stands_for (i_type s) (r_min r) z \/ stands_for (i_type s) (r_max r) z -> cpp_holds ty z) ->
  (exists r, In r (i_ranges s) /\ r_since r <= genSchemaVersion g) ->
  forall v w, supported g w ->
   (generated_valid ty o checks v w <->
    exists r, In r (i_ranges s) /\ present_at (r_since r) (r_depr r) true w /\ reported_range (i_type s) (r_min r) (r_max r) v).
Proof.
  intros ge x c s o checks R C H K Vd Vc g ty M0 M1 Rs Ne v w S. apply int_reachable_inv in R.
  assert (V : valid_check_version ge s = true) by (unfold valid_check_version; rewrite Vd, Vc; reflexivity).
  unfold never in *.
  assert (A1 : Forall (fun r => 0 <= r_since r <= 4294967295 /\ 0 <= r_depr r <= 4294967295) (i_ranges s)).
  { apply Forall_forall. intros r Hr. destruct (Rs r Hr) as (Q1 & Q2 & Q3 & Q4). lia. }
  assert (A2 : Forall (fun r => forall z, stands_for (i_type s) (r_min r) z \/ stands_for (i_type s) (r_max r) z -> cpp_holds ty z) (i_ranges s)).
  { apply Forall_forall. intros r Hr. now destruct (Rs r Hr) as (_ & _ & _ & Q4). }
  pose proof (valid_versions ge x c s o checks ty w R C V H K A1 A2) as Q.
  unfold supported in S. fold g in Q. rewrite (Q M0 S M1). clear Q. unfold present_at. split.
  - intros [F|(r & Hr & Hv & S1 & S2)].
    + exfalso. destruct Ne as (r & Ir & Er). specialize (F r Ir). fold g in F. lia.
    + destruct (Rs r Hr) as (Q1 & Q2 & Q3 & _). exists r. split; [exact Hr|]. split; [|exact Hv]. split; [exact S1|]. intros _.
      destruct S2 as [S2|S2]; [exact S2|]. rewrite (Q3 S2). lia.
  - intros (r & Hr & [P1 P2] & Hv). right. exists r. specialize (P2 eq_refl). auto.
Qed.
Print Assumptions C50_valid_in_version_partial.
Lemma NoDup_assoc_eq {A} (l : list (str * A)) k a b : NoDup (map fst l) -> In (k, a) l -> In (k, b) l -> b = a.
Proof.
  induction l as [|[k0 a0] l IH]; cbn [map In fst]; [intros _ []|]. intros N [E|I] [E'|I']; inversion N as [|? ? N1 N2]; subst.
  - congruence.
  - exfalso. apply N1. apply (in_map fst) in I'. injection E as -> ->. exact I'.
  - exfalso. apply N1. apply (in_map fst) in I. injection E' as -> ->. exact I.
  - eauto.
Qed.
Lemma not_valid ge s o v : gen_opts ge s = Ok o ->
  (forall l, (if valid_check_version ge s then l = i_ranges s else unify (gen_big_unsigned s) (i_ranges s) = Ok l) ->
     Forall r64 l /\ (forall r, In r l -> taken ge (valid_check_version ge s) r = true -> ~ covers (as_big (gen_big_unsigned s) r) r v) /\
     exists r, In r l /\ genDoesElementExist (ge_ver ge) (r_since r) (r_depr r) (negb (valid_check_version ge s)) = true) ->
  ~ base_valid o v.
Proof.
  intros H K B. destruct (int_valid_ranges _ _ _ _ _ v H) as (l & Hl & Q). destruct (K l Hl) as (R & N & (r & Ir & Er)).
  destruct (proj1 (Q R) B) as [(r0 & I0 & T0 & C0)|F]; [exact (N r0 I0 T0 C0)|]. rewrite Forall_forall in F. specialize (F r Ir). cbv beta in F. congruence.
Qed.
Lemma r64_dec r : ((int_min <=? r_min r) && (r_min r <=? int_max) && (int_min <=? r_max r) && (r_max r <=? int_max)) = true -> r64 r.
Proof. unfold r64, is64. lia. Qed.
Example C50_ex : exists s, ex_int [("type", "uint8"); ("validRange", "[0, 9]"); ("validValue", "10"); ("validMin", "200")] [] None = Ok s /\
  int_reachable s /\ clear_bounds s /\ gen_opts plain_ge s = Ok (map L ["TExtraOpts..."; "comms::option::def::ValidNumValueRange<0, 10>"; "comms::option::def::ValidNumValueRange<200, 255>"]).
Proof.
  by_eval E. split; [exact (ex_reach _ _ _ _ E)|]. split; [|vm_compute; reflexivity]. right. left. cbn. split; [discriminate|lia].
Qed.
Definition versioned_ge : gen_env := mkGE (mkGV 5 None 2) true.
(** a schema of version 5 *)
Definition ex_env5 : env :=
  mkEnv 5 0 Big (fun _ => None) (fun _ => None) (fun _ => None) (fun _ => None) (fun _ => None) (fun _ => None) (fun _ => None)
    (fun _ => None) (fun _ => Ok []).
Definition ex_int5 (attrs : list (string * string)) (children : list node) : res int_state :=
  let n := Elem (L "int") (ex_attrs attrs) children in int_parse ex_env5 (ex_common 0 false) (parseNodeProps n) n None.
Lemma ex_reach5 a ch s : ex_int5 a ch = Ok s -> int_reachable s.
Proof. intros H. eapply ir_fresh; [|exact H]. intros ? ? ? K. discriminate K. Qed.
Example C50_ex_version : exists s, ex_int5 [("type", "uint8"); ("validCheckVersion", "true"); ("validRange", "[0, 9]")]
    [ex_child "validRange" [("value", "[20, 29]"); ("sinceVersion", "4")]] = Ok s /\
  int_reachable s /\ clear_bounds s /\ (exists r, In r (i_ranges s) /\ r_since r <= 5) /\
  (forall r, In r (i_ranges s) -> 0 <= r_since r /\ r_since r < r_depr r <= never /\ (r_since r <= 2 -> r_depr r = never)) /\
  gen_opts versioned_ge s = Ok (map L ["TExtraOpts..."; "comms::option::def::ValidNumValueRange<0, 9>"; "comms::option::def::VersionStorage"]) /\
  valid_checks versioned_ge s = Ok [map L ["(4 <= Base::getVersion())"; "(static_cast<ValueType>(20) <= Base::getValue())"; "(Base::getValue() <= static_cast<ValueType>(29))"]].
Proof.
  by_eval E. split; [exact (ex_reach5 _ _ _ E)|]. split; [right; left; cbn; split; [discriminate|lia]|].
  split; [eexists; split; [left; reflexivity|cbn; lia]|].
  split; [cbn [i_ranges In]; intros r [<-|[<-|[]]]; cbn; unfold never; lia|]. split; vm_compute; reflexivity.
Qed.

(** Version 3 of a schema whose second range came with version 4. *)
Definition older_ge : gen_env := mkGE (mkGV 5 (Some 3) 0) false.
Example C50_ex_apart : exists s, ex_int5 [("type", "uint8"); ("validRange", "[0, 9]")]
    [ex_child "validRange" [("value", "[20, 29]"); ("sinceVersion", "4")]] = Ok s /\
  int_reachable s /\ clear_bounds s /\ (forall r, In r (i_ranges s) -> r_since r < r_depr r) /\
  (forall a b, In a (i_ranges s) -> In b (i_ranges s) ->
     (r_since a = r_since b /\ r_depr a = r_depr b) \/ leaves_gap (i_type s) a b \/ leaves_gap (i_type s) b a) /\
  (exists r v, In r (i_ranges s) /\ generated_range (ge_ver older_ge) r /\ reported_range (i_type s) (r_min r) (r_max r) v) /\
  gen_opts older_ge s = Ok (map L ["TExtraOpts..."; "comms::option::def::ValidNumValueRange<0, 9>"]).
Proof.
  by_eval E. split; [exact (ex_reach5 _ _ _ E)|]. clear E. split; [right; left; cbn; split; [discriminate|lia]|].
  split; [cbn [i_ranges In]; intros r [<-|[<-|[]]]; cbn; lia|].
  split; [|split; [|vm_compute; reflexivity]].
  - cbn [i_ranges In]. intros a b [<-|[<-|[]]] [<-|[<-|[]]]; try (left; split; reflexivity); right; [left|right]; intros u w Hu Hw; cbn in *; lia.
  - eexists _, 3. split; [left; reflexivity|]. split.
    + exists 1. split; [unfold supported; vm_compute; split; discriminate|]. split; [cbn; lia|]. intros _. cbn. lia.
    + eexists _, _. split; [reflexivity|]. split; [reflexivity|]. cbn. lia.
Qed.

Definition opts_of (ge : gen_env) (s : int_state) : list str := match gen_opts ge s with Ok o => o | _ => [] end.
Definition checks_of (ge : gen_env) (s : int_state) : list (list str) := match valid_checks ge s with Ok o => o | _ => [] end.
Definition signed64 : int_state := Eval vm_compute in got (ex_int [("type", "int64"); ("validRange", "[-5, 5]")] [] None).
Definition old_range : int_state := Eval vm_compute in got (ex_int5 [("type", "uint8"); ("validCheckVersion", "true")]
    [ex_child "validRange" [("value", "[0, 9]"); ("deprecated", "3")]; ex_child "validRange" [("value", "[20, 29]")]]).
Definition wide_range : int_state := Eval vm_compute in got (ex_int5 [("type", "uint8"); ("validCheckVersion", "true")]
    [ex_child "validRange" [("value", "[0, 1000]"); ("sinceVersion", "4")]]).
(** A negative bound of a 64 bit signed field is taken for a huge one: validRange [-5, 5]
    makes 0 invalid. *)
Theorem C50_signed64_refuted : exists s o, ex_int [("type", "int64"); ("validRange", "[-5, 5]")] [] None = Ok s /\ int_reachable s /\
  gen_opts plain_ge s = Ok o /\ (exists r, In r (i_ranges s) /\ reported_range (i_type s) (r_min r) (r_max r) 0) /\ ~ base_valid o 0.
Proof.
  exists signed64, (opts_of plain_ge signed64).
  split; [vm_compute; reflexivity|]. split; [eapply (ex_reach false [("type", "int64"); ("validRange", "[-5, 5]")] []); vm_compute; reflexivity|].
  split; [vm_compute; reflexivity|]. split; [eexists; split; [left; reflexivity|]; eexists _, _; split; [reflexivity|split; [reflexivity|cbn; lia]]|].
  apply (not_valid plain_ge signed64); [vm_compute; reflexivity|]. change (valid_check_version plain_ge signed64) with false. cbn [negb].
  intros l H. vm_compute in H. injection H as <-. split; [repeat constructor; apply r64_dec; vm_compute; reflexivity|]. split.
  - intros r [<-|[]] _ [C1 C2]. vm_compute in C1. exact (C1 eq_refl).
  - eexists. split; [left; reflexivity|vm_compute; reflexivity].
Qed.
Print Assumptions C50_signed64_refuted.
(** Touching ranges are merged even if they belong to different versions: the code generated
    for version 3 takes 15, which only version 4 allows, as valid. *)
Definition touching : int_state := Eval vm_compute in got (ex_int5 [("type", "uint8"); ("validRange", "[0, 9]")]
    [ex_child "validRange" [("value", "[10, 19]"); ("sinceVersion", "4")]]).
Theorem C50_merged_refuted : exists s o, ex_int5 [("type", "uint8"); ("validRange", "[0, 9]")]
    [ex_child "validRange" [("value", "[10, 19]"); ("sinceVersion", "4")]] = Ok s /\ int_reachable s /\
  gen_opts older_ge s = Ok o /\
  (forall r, In r (i_ranges s) -> reported_range (i_type s) (r_min r) (r_max r) 15 -> ~ generated_range (ge_ver older_ge) r) /\ base_valid o 15.
Proof.
  exists touching, (opts_of older_ge touching). split; [vm_compute; reflexivity|].
  split; [eapply (ex_reach5 [("type", "uint8"); ("validRange", "[0, 9]")] [ex_child "validRange" [("value", "[10, 19]"); ("sinceVersion", "4")]]); vm_compute; reflexivity|].
  split; [vm_compute; reflexivity|]. split.
  - cbn [touching i_ranges In i_type]. intros r [<-|[<-|[]]] (a & b & A & B & C) (w & [_ S] & P & _); cbn in A, B, C, P; [lia|].
    change (genSchemaVersion (ge_ver older_ge)) with 3 in S. lia.
  - left. eexists. split; [right; left; reflexivity|]. change (accepts (an_option (T "ValidNumValueRange") [T "0"; T "19"]) 15).
    apply (accepts_range _ _ 0 19); [change (T "0") with (genNumToStringU 0 0)|change (T "19") with (genNumToStringU 19 0)|lia]; apply numU_spec; unfold two64; lia.
Qed.
Print Assumptions C50_merged_refuted.
(** If none of the ranges belongs to the generated version every value is valid. *)
Definition later_only : int_state := Eval vm_compute in got (ex_int5 [("type", "uint8")]
    [ex_child "validRange" [("value", "[10, 19]"); ("sinceVersion", "4")]]).
Theorem C50_none_left_refuted : exists s o, ex_int5 [("type", "uint8")]
    [ex_child "validRange" [("value", "[10, 19]"); ("sinceVersion", "4")]] = Ok s /\ int_reachable s /\
  gen_opts older_ge s = Ok o /\ i_ranges s <> [] /\ (forall r, In r (i_ranges s) -> ~ generated_range (ge_ver older_ge) r) /\ forall v, base_valid o v.
Proof.
  exists later_only, (opts_of older_ge later_only). split; [vm_compute; reflexivity|].
  split; [eapply (ex_reach5 [("type", "uint8")] [ex_child "validRange" [("value", "[10, 19]"); ("sinceVersion", "4")]]); vm_compute; reflexivity|].
  split; [vm_compute; reflexivity|]. split; [discriminate|]. split.
  - cbn [later_only i_ranges In]. intros r [<-|[]] (w & [_ S] & P & _). change (genSchemaVersion (ge_ver older_ge)) with 3 in S. cbn in P. lia.
  - intros v. destruct (int_valid_ranges older_ge plain_fs (ex_common 0 false) later_only (opts_of older_ge later_only) v) as (l & Hl & K); [vm_compute; reflexivity|].
    change (valid_check_version older_ge later_only) with false in *. apply K; [|right]; vm_compute in Hl; apply Ok_inj in Hl; subst l;
    (constructor; [|constructor]); [apply r64_dec; vm_compute; reflexivity|vm_compute; reflexivity].
Qed.
Print Assumptions C50_none_left_refuted.
(** A deprecated range which all supported versions had at first stays valid for ever. *)
Theorem C50_deprecated_refuted : exists s o checks, ex_int5 [("type", "uint8"); ("validCheckVersion", "true")]
    [ex_child "validRange" [("value", "[0, 9]"); ("deprecated", "3")]; ex_child "validRange" [("value", "[20, 29]")]] = Ok s /\ int_reachable s /\
  gen_opts versioned_ge s = Ok o /\ valid_checks versioned_ge s = Ok checks /\ supported (ge_ver versioned_ge) 4 /\
  (forall r, In r (i_ranges s) -> reported_range (i_type s) (r_min r) (r_max r) 5 -> ~ present_at (r_since r) (r_depr r) true 4) /\
  generated_valid (genCppIntTypeFor (i_type s) (i_length s)) o checks 5 4.
Proof.
  exists old_range, (opts_of versioned_ge old_range), (checks_of versioned_ge old_range).
  split; [vm_compute; reflexivity|].
  split; [eapply (ex_reach5 [("type", "uint8"); ("validCheckVersion", "true")]
    [ex_child "validRange" [("value", "[0, 9]"); ("deprecated", "3")]; ex_child "validRange" [("value", "[20, 29]")]]); vm_compute; reflexivity|].
  split; [vm_compute; reflexivity|]. split; [vm_compute; reflexivity|]. split; [unfold supported; vm_compute; split; discriminate|]. split.
  - cbn [old_range i_ranges In i_type]. intros r [<-|[<-|[]]] (a & b & A & B & C) [P1 P2]; cbn in *; specialize (P2 eq_refl); lia.
  - left. left. eexists. split; [right; left; reflexivity|]. change (accepts (an_option (T "ValidNumValueRange") [T "0"; T "9"]) 5).
    apply (accepts_range _ _ 0 9); [change (T "0") with (genNumToStringU 0 0)|change (T "9") with (genNumToStringU 9 0)|lia]; apply numU_spec; unfold two64; lia.
Qed.
Print Assumptions C50_deprecated_refuted.
(** The bounds of a range need not fit the C++ type; the conversion in the generated check
    then loses values: 240 is refused though the range is [0, 1000]. *)
Theorem C50_truncated_refuted : exists s o checks, ex_int5 [("type", "uint8"); ("validCheckVersion", "true")]
    [ex_child "validRange" [("value", "[0, 1000]"); ("sinceVersion", "4")]] = Ok s /\ int_reachable s /\
  gen_opts versioned_ge s = Ok o /\ valid_checks versioned_ge s = Ok checks /\ supported (ge_ver versioned_ge) 4 /\
  (exists r, In r (i_ranges s) /\ reported_range (i_type s) (r_min r) (r_max r) 240 /\ present_at (r_since r) (r_depr r) true 4) /\
  ~ generated_valid (T "std::uint8_t") o checks 240 4.
Proof.
  exists wide_range, (opts_of versioned_ge wide_range), (checks_of versioned_ge wide_range).
  split; [vm_compute; reflexivity|].
  split; [eapply (ex_reach5 [("type", "uint8"); ("validCheckVersion", "true")] [ex_child "validRange" [("value", "[0, 1000]"); ("sinceVersion", "4")]]); vm_compute; reflexivity|].
  split; [vm_compute; reflexivity|]. split; [vm_compute; reflexivity|]. split; [unfold supported; vm_compute; split; discriminate|]. split.
  - eexists. split; [left; reflexivity|]. split; [eexists _, _; split; [reflexivity|split; [reflexivity|cbn; lia]]|]. split; [cbn; lia|]. intros _. cbn. lia.
  - intros [B|(conj & [<-|[]] & F)].
    + revert B. apply (not_valid versioned_ge wide_range); [vm_compute; reflexivity|]. change (valid_check_version versioned_ge wide_range) with true. cbn [negb].
      intros l ->. split; [repeat constructor; apply r64_dec; vm_compute; reflexivity|]. split.
      * intros r [<-|[]] Tk _. vm_compute in Tk. discriminate.
      * eexists. split; [left; reflexivity|vm_compute; reflexivity].
    + apply Forall_inv_tail in F. apply Forall_inv_tail in F. apply Forall_inv in F.
      change (atom_true (T "std::uint8_t") 240 4 (T "(Base::getValue() <= static_cast<ValueType>(" ++ genNumToStringU 1000 0 ++ T "))")) in F.
      assert (C1 : constant (genNumToStringU 1000 0) 1000) by (apply numU_spec; unfold two64; lia).
      atom_cases F; try no_head; try discriminate E. apply app_inv_head in E. cbn [T list_ascii_of_string app] in E.
      apply (cast_tail _ _ _ _ _ _ C1 C) in E as [<- _]. rewrite <- (constant_det _ _ _ C1 C) in F. destruct F as [H1 H2].
      specialize (H2 8 ltac:(cbn; tauto)). destruct (cpp_bits (T "std::uint8_t") _ 8 ltac:(cbn; tauto) H1) as [_ [[I _]|[_ U]]].
      * cbn [signed_cpp In] in I. repeat destruct I as [I|I]; try contradiction; discriminate I.
      * unfold unsigned_bits in U. change (2 ^ 8) with 256 in *. apply Z.mod_divide in H2; [|lia]. destruct H2 as [k H2]. lia.
Qed.
Print Assumptions C50_truncated_refuted.

(** ** C51 *)
(** A generated class is serialised with the lengths the parser reports *)
Theorem C51_length : forall ge x c s o, int_reachable s -> int_def_opts ge x c s false = Ok o ->
  (c_inBitfield c = false \/ variable_type (i_type s)) ->
  exists lo, (variable_type (i_type s) -> lo = 1) /\ (~ variable_type (i_type s) -> lo = i_length s) /\
  serialised_length (genCppIntTypeFor (i_type s) (i_length s)) o lo (i_length s).
Proof.
  intros ge x c s o R H B. apply int_reachable_inv in R.
  assert (V : is_var (i_type s) = true <-> variable_type (i_type s)).
  { unfold variable_type. destruct (i_type s); cbn; intuition discriminate. }
  exists (if is_var (i_type s) then 1 else i_length s). rewrite <- V.
  split; [intros ->; reflexivity|]. split; [intros N; destruct (is_var (i_type s)); [congruence|reflexivity]|].
  eapply length_is; [exact R|exact H|]. rewrite V. exact B.
Qed.
Print Assumptions C51_length.
(** and a member of a bitfield with the number of bits *)
Theorem C51_bits : forall ge x c s o, int_reachable s -> int_def_opts ge x c s false = Ok o ->
  c_inBitfield c = true -> ~ variable_type (i_type s) -> i_bitLength s <> 0 ->
  exists y, In y o /\ bit_length_option y (i_bitLength s) /\ forall y', In y' o -> about_length y' -> y' = y.
Proof.
  intros ge x c s o R H B V N. apply int_reachable_inv in R. eapply bit_length_is; eauto.
  destruct (is_var (i_type s)) eqn:E; [|reflexivity]. exfalso. apply V. unfold variable_type. destruct (i_type s); try discriminate; cbn; tauto.
Qed.
Print Assumptions C51_bits.
Example C51_ex : exists s, ex_int [("type", "int32"); ("length", "3")] [] None = Ok s /\ int_reachable s /\
  gen_opts plain_ge s = Ok (map L ["TExtraOpts..."; "comms::option::def::FixedLength<3>"]).
Proof. by_eval E. split; [exact (ex_reach _ _ _ _ E)|vm_compute; reflexivity]. Qed.
Example C51_ex_bits : exists s, ex_int_in true [("type", "uint8"); ("bitLength", "3")] [] None = Ok s /\ int_reachable s /\
  i_bitLength s <> 0 /\ int_def_opts plain_ge plain_fs (ex_common 0 true) s false = Ok (map L ["TExtraOpts..."; "comms::option::def::FixedBitLength<3>"]).
Proof. by_eval E. split; [exact (ex_reach _ _ _ _ E)|]. split; [discriminate|vm_compute; reflexivity]. Qed.

(** ** C52 *)
(** The default value of the generated class is the number the parser reports; a version
    field without one gets the version of the schema. *)
Theorem C52_default : forall ge x c s o, int_reachable s -> int_def_opts ge x c s false = Ok o -> 0 <= genSchemaVersion (ge_ver ge) < 2 ^ 64 ->
  exists v, default_value o v /\
    (i_default s <> 0 \/ c_sem c <> SemVersion -> stands_for (i_type s) (i_default s) v) /\
    (i_default s = 0 -> c_sem c = SemVersion -> v = genSchemaVersion (ge_ver ge)).
Proof.
  intros ge x c s o R H V. apply int_reachable_inv in R. pose proof (default_is _ _ _ _ _ R V H) as D. eexists. split; [exact D|].
  destruct (inv_default _ R) as [I _]. split.
  - intros K. replace ((i_default s =? 0) && is_version_sem (c_sem c)) with false; [now apply stands_as_cmp|].
    symmetry. destruct K as [K|K]; [replace (i_default s =? 0) with false by lia; reflexivity|]. destruct (c_sem c); try congruence; cbn; apply andb_false_r.
  - intros -> ->. reflexivity.
Qed.
Print Assumptions C52_default.
Example C52_ex : exists s, ex_int [("type", "uint64"); ("defaultValue", "0xffffffffffffffff")] [] None = Ok s /\ int_reachable s /\
  stands_for (i_type s) (i_default s) 18446744073709551615 /\
  gen_opts plain_ge s = Ok (map L ["TExtraOpts..."; "comms::option::def::DefaultBigUnsignedNumValue<0xFFFFFFFFFFFFFFFFULL>"]).
Proof. by_eval E. split; [exact (ex_reach _ _ _ _ E)|]. split; [reflexivity|]. vm_compute. reflexivity. Qed.

(** ** C53 *)
Definition special_function (n : txt) : txt := T "value" ++ genClassName n.
(** Each special value some supported version has gets a function that returns it, and there are no other ones *)
Theorem C53_functions : forall ge s l, int_reachable s -> gv_min_remote (ge_ver ge) <= genSchemaVersion (ge_ver ge) ->
  (forall n x, In (n, x) (i_specials s) -> v_since x < v_depr x) -> special_funcs ge s = Ok l ->
  (forall f t, In (f, t) l -> exists n x v, In (n, x) (i_specials s) /\ f = special_function n /\ stands_for (i_type s) (v_value x) v /\ constant t v) /\
  (forall n x, In (n, x) (i_specials s) -> (exists w, supported (ge_ver ge) w /\ present_at (v_since x) (v_depr x) true w) ->
     exists t v, In (special_function n, t) l /\ stands_for (i_type s) (v_value x) v /\ constant t v).
Proof.
  intros ge s l R M Vs H. apply int_reachable_inv in R. pose proof (special_funcs_spec ge s l R H) as F.
  assert (V : forall n x, In (n, x) (i_specials s) -> is64 (v_value x)).
  { intros n x I. pose proof (sps_64 _ _ (inv_sps _ R)) as S. rewrite Forall_forall in S. exact (S _ I). }
  assert (C : forall n x t, In (n, x) (i_specials s) ->
    (if is_big (i_type s) then Ok (genNumToStringU (to_u64 (v_value x)) 0) else genNumToStringS (v_value x)) = Ok t ->
    exists v, stands_for (i_type s) (v_value x) v /\ constant t v).
  { intros n x t I E. exists (as_cmp (is_big (i_type s)) (v_value x)). split; [now apply stands_as_cmp; eauto|]. unfold as_cmp.
    destruct (is_big (i_type s)); [apply Ok_inj in E; subst; apply numU_spec, to_u64_range|eapply numS_spec; eauto]. }
  split.
  - intros f t K. apply F in K as (n & x & I & Ex & -> & E). destruct (C n x t I E) as (v & V1 & V2). exists n, x, v. auto.
  - intros n x I Ex. apply (C34_exists _ _ _ _ M (Vs n x I)) in Ex.
    assert (Q : exists t, (if is_big (i_type s) then Ok (genNumToStringU (to_u64 (v_value x)) 0) else genNumToStringS (v_value x)) = Ok t).
    { unfold special_funcs in H. destruct (mapM_In_fwd _ _ _ (n, x) H) as ([f t] & _ & E).
      - apply filter_In. split; [unfold specials_sorted; now apply sort_In|exact Ex].
      - cbn [fst snd] in E. apply bind_Ok in E as (t' & E & _). eauto. }
    destruct Q as [t E]. destruct (C n x t I E) as (v & V1 & V2). exists t, v. split; [|auto]. apply F. exists n, x. auto.
Qed.
Print Assumptions C53_functions.
(** The map of names lists every special value once, by growing values *)
Theorem C53_map : forall s, int_reachable s ->
  exists l, Permutation.Permutation l (i_specials s) /\ special_map s = map (fun x => (special_function (fst x), fst x)) l /\
  StronglySorted (fun a b => forall x y, stands_for (i_type s) (v_value (snd a)) x -> stands_for (i_type s) (v_value (snd b)) y -> x <= y) l.
Proof.
  intros s R. apply int_reachable_inv in R. pose proof (sps_64 _ _ (inv_sps _ R)) as S.
  exists (specials_sorted s). split; [apply sort_perm|]. split; [reflexivity|]. unfold specials_sorted.
  assert (T0 : forall b a, lt_special (is_unsigned_type (i_type s)) b a = false -> forall x y,
     is64 (v_value (snd a)) -> is64 (v_value (snd b)) -> (is_unsigned_type (i_type s) = true -> is_big (i_type s) = false -> 0 <= v_value (snd a) /\ 0 <= v_value (snd b)) ->
     stands_for (i_type s) (v_value (snd a)) x -> stands_for (i_type s) (v_value (snd b)) y -> x <= y).
  { intros b a L0 x y Ra Rb Ps Hx Hy. apply stands_as_cmp in Hx; [|exact Ra]. apply stands_as_cmp in Hy; [|exact Rb]. subst x y.
    unfold lt_special in L0. destruct (v_value (snd b) =? v_value (snd a)) eqn:E; [replace (v_value (snd b)) with (v_value (snd a)) by lia; lia|].
    unfold as_cmp. destruct (is_unsigned_type (i_type s)) eqn:U.
    - destruct (is_big (i_type s)) eqn:B; [lia|]. specialize (Ps eq_refl eq_refl). rewrite !to_u64_small in L0 by (auto; lia). lia.
    - assert (B : is_big (i_type s) = false) by (destruct (i_type s); try discriminate; reflexivity). rewrite B. lia. }
  assert (Pos : Forall (fun x => is64 (v_value (snd x)) /\ (is_unsigned_type (i_type s) = true -> is_big (i_type s) = false -> 0 <= v_value (snd x))) (i_specials s)).
  { destruct (inv_sps _ R) as [_ F]. eapply Forall_impl; [|exact F]. intros x (_ & H1 & H2). split; [exact H1|]. intros U B. rewrite B in H2.
    unfold in_limits in H2. destruct (i_type s); try discriminate; cbn in H2; lia. }
  eapply (SS_impl (fun a b => lt_special (is_unsigned_type (i_type s)) b a = false)); [| |now apply specials_sort].
  2: apply sort_Forall; exact Pos.
  cbv beta. intros a b [Ra Pa] [Rb Pb] K x y. apply (T0 b a K x y Ra Rb). auto.
Qed.
Print Assumptions C53_map.
(** If every special value is in a supported version and no two of their names differ
    only in the case of the first letter, each entry of the map calls the one function
    that returns the special value with that name. *)
Theorem C53_map_calls_partial : forall ge s l, int_reachable s -> special_funcs ge s = Ok l ->
  (forall n x, In (n, x) (i_specials s) -> genDoesElementExist (ge_ver ge) (v_since x) (v_depr x) true = true) ->
  (forall n m, In n (map fst (i_specials s)) -> In m (map fst (i_specials s)) -> genClassName n = genClassName m -> n = m) ->
  forall f n, In (f, n) (special_map s) ->
    exists x v, In (n, x) (i_specials s) /\ stands_for (i_type s) (v_value x) v /\
      (exists t, In (f, t) l) /\ forall t, In (f, t) l -> constant t v.
Proof.
  intros ge s l R H Ex Nm f n K. unfold special_map in K. apply in_map_iff in K as ([n0 x] & E & I). cbn [fst] in E. apply pair_equal_spec in E as [<- <-].
  unfold specials_sorted in I. apply sort_In in I. apply int_reachable_inv in R. pose proof (special_funcs_spec ge s l R H) as F.
  pose proof (sps_64 _ _ (inv_sps _ R)) as S. rewrite Forall_forall in S. pose proof (S _ I) as V. cbn [snd] in V.
  exists x, (as_cmp (is_big (i_type s)) (v_value x)). split; [exact I|]. split; [now apply stands_as_cmp|]. split.
  - unfold special_funcs in H. destruct (mapM_In_fwd _ _ _ (n0, x) H) as ([f t] & It & E).
    + apply filter_In. split; [unfold specials_sorted; now apply sort_In|exact (Ex _ _ I)].
    + cbn [fst snd] in E. apply bind_Ok in E as (t' & _ & E). apply Ok_inj in E. apply pair_equal_spec in E as [<- <-]. eauto.
  - intros t It. apply F in It as (m & y & Iy & _ & Ef & Et). apply app_inv_head in Ef.
    apply Nm in Ef; [|now apply (in_map fst) in I|now apply (in_map fst) in Iy]. subst m.
    assert (y = x). { destruct (inv_sps _ R) as [ND _]. eapply NoDup_assoc_eq; eauto. } subst y.
    unfold as_cmp. destruct (is_big (i_type s)); [apply Ok_inj in Et; subst; apply numU_spec, to_u64_range|eapply numS_spec; eauto].
Qed.
Print Assumptions C53_map_calls_partial.
Definition special_el (n v : string) (more : list (string * string)) : node := ex_child "special" ([("name", n); ("val", v)] ++ more).
Definition two_specials : int_state := Eval vm_compute in got (ex_int5 [("type", "int8")] [special_el "low" "-3" []; special_el "big" "100" [("sinceVersion", "4")]]).
Example C53_ex : ex_int5 [("type", "int8")] [special_el "low" "-3" []; special_el "big" "100" [("sinceVersion", "4")]] = Ok two_specials /\
  int_reachable two_specials /\ special_funcs versioned_ge two_specials = Ok [(L "valueLow", L "-3"); (L "valueBig", L "100")] /\
  special_map two_specials = [(L "valueLow", L "low"); (L "valueBig", L "big")].
Proof.
  split; [vm_compute; reflexivity|]. split; [|vm_compute; auto].
  eapply (ex_reach5 [("type", "int8")] [special_el "low" "-3" []; special_el "big" "100" [("sinceVersion", "4")]]). vm_compute. reflexivity.
Qed.
(** With --force-ver 2 the function of the special value of version 4 is not generated,
    but the map still calls it: the generated code does not compile. *)
Theorem C53_map_refuted : exists s l f n, int_reachable s /\ special_funcs (mkGE (mkGV 5 (Some 2) 0) true) s = Ok l /\
  In (f, n) (special_map s) /\ forall t, ~ In (f, t) l.
Proof.
  exists two_specials, [(L "valueLow", L "-3")], (L "valueBig"), (L "big"). split; [apply C53_ex|]. split; [vm_compute; reflexivity|].
  split; [vm_compute; auto|]. intros t [K|[]]. discriminate K.
Qed.
Print Assumptions C53_map_refuted.
(** Two special values whose names differ in the case of the first letter get one function each with the same name. *)
Definition case_specials : int_state := Eval vm_compute in got (ex_int5 [("type", "int8")] [special_el "low" "1" []; special_el "Low" "2" []]).
Theorem C53_names_refuted : exists s f, ex_int5 [("type", "int8")] [special_el "low" "1" []; special_el "Low" "2" []] = Ok s /\ int_reachable s /\
  special_funcs plain_ge s = Ok [(f, L "1"); (f, L "2")].
Proof.
  exists case_specials, (L "valueLow"). split; [vm_compute; reflexivity|]. split; [|vm_compute; reflexivity].
  eapply (ex_reach5 [("type", "int8")] [special_el "low" "1" []; special_el "Low" "2" []]). vm_compute. reflexivity.
Qed.
Print Assumptions C53_names_refuted.
