(** C56: flags, byte order, value type, name and function bodies of generated integer fields. *)
From Coq Require Import Sorted ZifyBool ZifyNat.
From Verif.Model Require Import Base Common Xml Units Field FieldCommon IntField GenUtil GenComms CommsInt.
From Verif.Spec Require Import Texts Ints Versions IntSpec GenSpec NameSpec HeaderSpec CppSpec CondCode BodySpec.
From Verif.Proofs Require Import BaseFacts CommonFacts IntFacts RangeFacts IntInv GenFacts NameFacts CommsIntFacts CommsOptFacts TemplateFacts CondTextFacts CondMeanFacts.
From Verif.Props Require Import PInt PGen PTemplate PComms PCondCode.
Local Open Scope string_scope. Local Open Scope Z_scope. Local Open Scope list_scope.

(** ** Flags *)
Lemma def_options_In x c y : In y (comms_def_options x c) <->
  (fs_global x = true /\ y = L "TExtraOpts...") \/ (exists s, fs_custom x = Some s /\ y = L "typename TOpt::" ++ s) \/
  (fs_named x = true /\ y = copt (L "HasName")) \/
  (fs_forcedFail x = true /\ y = copt (L "FailOnInvalid<comms::ErrorStatus::ProtocolError>")) \/
  (fs_forcedFail x = false /\ c_failOnInvalid c = true /\ y = copt (L "FailOnInvalid<>")) \/
  ((fs_forcedFail x || c_failOnInvalid c) && fs_hasValid x = true /\ y = copt (L "FieldType<" ++ fs_typeName x ++ L ">")) \/
  (fs_hasRead x = true /\ y = copt (L "HasCustomRead")) \/ (fs_hasRefresh x = true /\ y = copt (L "HasCustomRefresh")) \/
  (fs_hasWrite x = true /\ y = copt (L "HasCustomWrite")) \/ (fs_forcedPseudo x || c_pseudo c = true /\ y = copt (L "EmptySerialization")) \/
  (c_fixedValue c = true /\ y = copt (L "FixedValue")).
Proof.
  unfold comms_def_options. rewrite !in_add_if.
  assert (B : In y ((if fs_global x then [L "TExtraOpts..."] else []) ++ match fs_custom x with Some s => [L "typename TOpt::" ++ s] | None => [] end) <->
     (fs_global x = true /\ y = L "TExtraOpts...") \/ exists s, fs_custom x = Some s /\ y = L "typename TOpt::" ++ s).
  { rewrite in_app_iff. apply Morphisms_Prop.or_iff_morphism; [destruct (fs_global x); cbn [In]; intuition congruence|].
    destruct (fs_custom x) as [s|]; cbn [In]; split; [intros [<- | []]; eauto|intros (s0 & E & ->); left; congruence|intros []|intros (s0 & E & _); discriminate]. }
  destruct (fs_forcedFail x); rewrite ?in_app_iff, !in_add_if, B; cbn [In orb]; intuition congruence.
Qed.
Definition flag_names : list txt := [T "HasName"; T "FailOnInvalid<comms::ErrorStatus::ProtocolError>"; T "FailOnInvalid<>"; T "HasCustomRead"; T "HasCustomRefresh";
  T "HasCustomWrite"; T "EmptySerialization"; T "FixedValue"; T "AvailableLengthLimit"].
Lemma flag_In ge x c i o n : int_def_opts ge x c i false = Ok o -> In n flag_names ->
  In (copt n) o <-> In (copt n) (comms_def_options x c) \/ (copt n = copt (L "HasCustomRefresh") /\ requires_refresh c i = true) \/
                    (copt n = copt (L "AvailableLengthLimit") /\ i_availableLengthLimit i = true).
Proof.
  intros H N. apply int_def_opts_steps in H as (o1 & o2 & o3 & H1 & H2 & H3 & ->). unfold front_opts in H1.
  apply bind_Ok in H1 as (p1 & P1 & H1). apply bind_Ok in H1 as (p2 & P2 & H1). apply bind_Ok in H1 as (p3 & P3 & H1). apply Ok_inj in H1. subst o1.
  apply ser_In in P1 as (ls & Ls & P1). apply display_In in P2 as (ld & Ld & P2). apply scaling_In in P3 as (lc & Lc & P3).
  apply default_In in H2 as (lf & Lf & H2).
  pose proof (ranges_In _ _ _ _ H3 (copt n)) as [R1 R2].
  rewrite H2, units_In, P3, P2, P1, length_In in R1, R2. rewrite !in_add_if.
  split; [|intuition auto]. intros [[Q E]|[[Q E]|Q]]; [auto|auto|]. left. specialize (R2 Q). clear R1 Q H3 H2 P1 P2 P3.
  destruct R2 as [[J|[[J1 J]|[J|[J|[J|[J|J]]]]]]|[[s J]|[J|J]]]; try exact J; exfalso.
  - apply (default_form _ _ _ _ _ Lf) in J as [s [J|J]]; cbn [In flag_names] in N; repeat destruct N as [<-|N]; try contradiction; discriminate J.
  - destruct (units_form _ J1) as [s E]. rewrite E in J. cbn [In flag_names] in N; repeat destruct N as [<-|N]; try contradiction; discriminate J.
  - apply (scaling_form _ _ _ Lc) in J as [s J]; cbn [In flag_names] in N; repeat destruct N as [<-|N]; try contradiction; discriminate J.
  - apply (display_form _ _ _ Ld) in J as [s J]; cbn [In flag_names] in N; repeat destruct N as [<-|N]; try contradiction; discriminate J.
  - apply (ser_form _ _ _ Ls) in J as [s J]; cbn [In flag_names] in N; repeat destruct N as [<-|N]; try contradiction; discriminate J.
  - apply length_form in J as [s [J|[J|J]]]; cbn [In flag_names] in N; repeat destruct N as [<-|N]; try contradiction; discriminate J.
  - cbn [In flag_names] in N; repeat destruct N as [<-|N]; try contradiction; discriminate J.
  - cbn [In flag_names] in N; repeat destruct N as [<-|N]; try contradiction; discriminate J.
  - cbn [In flag_names] in N; repeat destruct N as [<-|N]; try contradiction; discriminate J.
Qed.
Ltac flag H := unfold plain_option; rewrite (flag_In _ _ _ _ _ _ H) by (cbn; tauto); rewrite def_options_In, ?orb_true_iff; split;
  [intros K; repeat destruct K as [K|K]; repeat match type of K with exists _, _ => destruct K as [? K] end; repeat match goal with Q : _ /\ _ |- _ => destruct Q end; try discriminate; try tauto
  |intros K].
(** The flags of the schema reach the generated class as options: failOnInvalid, pseudo,
    fixedValue, availableLengthLimit; so do custom code and forced settings. A field
    which fails on invalid values and whose valid values are known refreshes itself. *)
Theorem C56_flags : forall ge x c s o, int_def_opts ge x c s false = Ok o ->
  let has n := In (plain_option (T n)) o in
  (has "EmptySerialization" <-> c_pseudo c = true \/ fs_forcedPseudo x = true) /\
  (has "FixedValue" <-> c_fixedValue c = true) /\
  (has "AvailableLengthLimit" <-> i_availableLengthLimit s = true) /\
  (has "FailOnInvalid<>" <-> c_failOnInvalid c = true /\ fs_forcedFail x = false) /\
  (has "FailOnInvalid<comms::ErrorStatus::ProtocolError>" <-> fs_forcedFail x = true) /\
  (has "HasName" <-> fs_named x = true) /\
  (has "HasCustomRead" <-> fs_hasRead x = true) /\ (has "HasCustomWrite" <-> fs_hasWrite x = true) /\
  (has "HasCustomRefresh" <-> fs_hasRefresh x = true \/ (c_failOnInvalid c = true /\ c_fixedValue c = false /\ i_ranges s <> [])).
Proof.
  intros ge x c s o H has. unfold has. 
  split; [flag H; left; do 9 right; left; split; [tauto|reflexivity]|].
  split; [flag H; left; do 10 right; split; [tauto|reflexivity]|].
  split; [flag H; right; right; split; [reflexivity|exact K]|].
  split; [flag H; left; do 4 right; left; tauto|].
  split; [flag H; left; do 3 right; left; tauto|].
  split; [flag H; left; do 2 right; left; tauto|].
  split; [flag H; left; do 6 right; left; tauto|].
  split; [flag H; left; do 8 right; left; tauto|].
  assert (E : requires_refresh c s = true <-> c_failOnInvalid c = true /\ c_fixedValue c = false /\ i_ranges s <> []).
  { unfold requires_refresh. rewrite !andb_true_iff, !negb_true_iff. destruct (i_ranges s); cbn [is_nil]; intuition congruence. }
  rewrite <- E. flag H. destruct K as [K|K]; [left; do 7 right; left; tauto|right; left; tauto].
Qed.
Print Assumptions C56_flags.
(** Whether a negative number in fewer bytes (bits) than its type is filled up with its sign *)
Theorem C51_sign_extension : forall ge x c s o y a, int_reachable s -> int_def_opts ge x c s false = Ok o -> In y o ->
  In a [T "FixedLength"; T "FixedBitLength"] -> (exists arg, y = an_option a [arg]) ->
  exists n v, constant n v /\ y = if i_signExt s then an_option a [n] else an_option a [n; T "false"].
Proof.
  intros ge x c s o y a R H I A [arg E0]. apply int_reachable_inv in R. destruct (inv_bits _ R) as (B1 & B2 & B3).
  apply opts_sources in H as (ls & ld & lc & lf & S). pose proof E0 as E1. rewrite E1 in I.
  apply (so_length _ _ _ _ _ _ _ _ S) in I; [|cbn in A |- *; tauto]. rewrite <- E1 in I. clear S E1.
  pose proof (max_len_pos (i_type s)) as ML. assert (ML' : max_type_length (i_type s) <= 10) by (destruct (i_type s); cbn; lia).
  assert (B4 : i_bitLength s <= 1000) by (unfold bits_ok in *; lia).
  unfold length_opts, add_length_opt in I. cbn [In] in A. destruct (is_var (i_type s)) eqn:V; [apply in_add_nil in I; rewrite E0 in I; destruct A as [<-|[<-|[]]]; discriminate I|].
  destruct (negb ((if c_inBitfield c then i_bitLength s else 0) =? 0)).
  { apply in_add_nil in I. destruct A as [<-|[<-|[]]]; [rewrite E0 in I; discriminate I|]. exists (genNumToStringU (if c_inBitfield c then i_bitLength s else 0) 0), (if c_inBitfield c then i_bitLength s else 0).
    split; [apply numU_spec; unfold two64; destruct (c_inBitfield c); lia|]. rewrite I. unfold sign_ext_param.
    destruct (i_signExt s); rewrite ?opt2_one; unfold an_option, copt; cbn [join]; rewrite <- ?app_assoc; reflexivity. }
  destruct (negb _); [|contradiction].
  apply in_add_nil in I. destruct A as [<-|[<-|[]]]; [|rewrite E0 in I; discriminate I]. exists (genNumToStringU (i_length s) 0), (i_length s).
  split; [apply numU_spec; unfold two64; lia|]. rewrite I. unfold sign_ext_param.
  destruct (i_signExt s); rewrite ?opt2_one; unfold an_option, copt; cbn [join]; rewrite <- ?app_assoc; reflexivity.
Qed.
Print Assumptions C51_sign_extension.
(** ** Class *)
(** Byte order, value type and options of the generated class *)
Theorem C56_class : forall ge x schema c s params ty opts, int_reachable s -> int_base_class ge x schema c s = Ok (params, ty, opts) ->
  (forall e, byte_order schema params e <-> e = i_endian s) /\
  (forall v, wire_values (i_type s) (i_length s) (i_bitLength s) v -> cpp_holds ty v) /\
  exists o, int_def_opts ge x c s false = Ok o /\ opts = join (T "," ++ [newline]) o /\
    ((c_inBitfield c = false \/ variable_type (i_type s)) -> exists lo, serialised_length ty o lo (i_length s)).
Proof.
  intros ge x schema c s params ty opts R H. unfold int_base_class in H. apply bind_Ok in H as (o & Ho & H). apply Ok_inj in H.
  apply pair_equal_spec in H as [H <-]. apply pair_equal_spec in H as [<- <-].
  split; [|split].
  - intros e. unfold field_base_params. destruct schema, (i_endian s), e; split; intros K; try discriminate K; try reflexivity; try constructor; try (inversion K; fail).
  - now apply C47_type_holds_wire.
  - exists o. split; [exact Ho|]. split; [apply list_join|]. intros B. destruct (C51_length _ _ _ _ _ R Ho B) as (lo & _ & _ & Q). eauto.
Qed.
Print Assumptions C56_class.

(** ** Function bodies *)
Lemma constant_flat s v : constant s v -> flat s.
Proof. intros H I. apply constant_const in H. rewrite Forall_forall in H. now destruct (H _ I). Qed.
Lemma num_flat z : 0 <= z < two64 -> flat (genNumToStringU z 0).
Proof. intros H. eapply constant_flat, numU_spec, H. Qed.
Lemma numS_flat z s : is64 z -> genNumToStringS z = Ok s -> flat s.
Proof. intros H E. eapply constant_flat, numS_spec; eauto. Qed.
Definition cond_line (t : txt) : Prop := flat t /\ exists r, t = "("%char :: r.
Lemma line_lay t : cond_line t -> lay t t.
Proof. intros [F [r ->]]. apply lay_flat; [exact F|discriminate]. Qed.
Lemma check_conds_lines big r l : r64 r -> 0 <= r_since r < two64 -> 0 <= r_depr r < two64 -> check_conds big r = Ok l -> l <> [] /\ Forall cond_line l.
Proof.
  intros R64 S D H. unfold check_conds in H. apply bind_Ok in H as ([lo hi] & Hl & H). apply Ok_inj in H. subst l.
  assert (F : flat lo /\ flat hi).
  { destruct big.
    - apply Ok_inj in Hl. apply pair_equal_spec in Hl as [<- <-]. split; apply num_flat, to_u64_range.
    - apply bind_Ok in Hl as (a & Ha & Hl). apply bind_Ok in Hl as (b & Hb & Hl). apply Ok_inj in Hl. apply pair_equal_spec in Hl as [<- <-].
      destruct R64 as [R1 R2]. exact (conj (numS_flat _ _ R1 Ha) (numS_flat _ _ R2 Hb)). }
  destruct F as [Fl Fh]. split; [destruct (0 <? r_since r), (r_depr r <? 4294967295), (r_min r =? r_max r); discriminate|].
  assert (G : forall a b, flat a -> flat b -> flat (a ++ b)) by (intros; now apply flat_app).
  repeat (apply Forall_app; split).
  - destruct (0 <? r_since r); [|constructor]. constructor; [|constructor]. split; [|eexists; reflexivity].
    apply G; [flat_lit|]. apply G; [now apply num_flat|flat_lit].
  - destruct (r_depr r <? _); [|constructor]. constructor; [|constructor]. split; [|eexists; reflexivity].
    apply G; [flat_lit|]. apply G; [now apply num_flat|flat_lit].
  - destruct (_ =? _); repeat apply Forall_cons; try constructor; try (eexists; reflexivity); (apply G; [flat_lit|apply G; [assumption|flat_lit]]).
Qed.
(** a text of whole lines *)
Definition block (t u : txt) : Prop := forall y, unindent true (t ++ y) = u ++ unindent true y.
Definition range_pieces : list piece := [Text (L "if ("); Hole (T "COND"); Text (L ") {" ++ [nl] ++ L "    return true;" ++ [nl] ++ L "}" ++ [nl])].
Lemma range_template : template range_pieces.
Proof.
  unfold range_pieces. constructor; [apply plain_no_hash, in_b_not; vm_compute; reflexivity|apply name_no_hash, in_b_not; vm_compute; reflexivity|].
  constructor. apply end_no_hash, in_b_not. vm_compute. reflexivity.
Qed.
Lemma lines_join l : l <> [] -> Forall cond_line l -> lay (join (T " &&" ++ [newline]) l) (join (T " &&" ++ [newline]) l).
Proof.
  intros N F. change (T " &&" ++ [newline]) with (sep true). apply lay_join; [|exact N]. clear N. induction F; constructor; auto. now apply line_lay.
Qed.
Lemma range_block l : l <> [] -> Forall cond_line l ->
  exists t, genProcessTemplate range_templ [(L "COND", genStrListToString l (L " &&" ++ [nl]) [])] false = Ok t /\ block t (check_code l) /\ t <> [].
Proof.
  intros N F. rewrite list_join. set (repl := [(L "COND", join (L " &&" ++ [nl]) l)]).
  assert (Lk : lookup (T "COND") repl = join (T " &&" ++ [newline]) l) by reflexivity.
  assert (Nn : join (T " &&" ++ [newline]) l <> []).
  { destruct l as [|a l]; [congruence|]. inversion F as [|? ? [_ [r ->]] _]. destruct l; discriminate. }
  exists (filled (fun k => lookup k repl) [] range_pieces). split; [|split].
  - change range_templ with (template_text range_pieces). apply C36_filled; [exact range_template|].
    intros k I. cbn [holes range_pieces In] in I. destruct I as [<-|[]]. rewrite Lk. exact Nn.
  - intros y. cbn [filled range_pieces]. rewrite Lk. rewrite <- !app_assoc.
    assert (forall z, unindent true (L "if (" ++ z) = T "if (" ++ unindent false z) as -> by reflexivity.
    rewrite (lay_indented _ _ _ (lines_join l N F)). unfold check_code. rewrite <- !app_assoc. do 2 f_equal.
  - discriminate.
Qed.
Lemma checks_block l : Forall (fun c => c <> [] /\ Forall cond_line c) l -> l <> [] ->
  exists t, checks_text l = Ok t /\ block t (join [newline] (map check_code l)) /\ t <> [].
Proof.
  induction l as [|c l IH]; [congruence|]. intros F _. inversion F as [|? ? [N Fc] Fl]. subst.
  destruct (range_block c N Fc) as (t & Et & Bt & Nt). cbn [checks_text]. rewrite Et. cbn [bind].
  destruct l as [|c' l]; [exists t; cbn [checks_text bind is_nil map join]; repeat split; auto|].
  destruct (IH Fl ltac:(discriminate)) as (t' & Et' & Bt' & Nt'). rewrite Et'. cbn [bind].
  destruct t' as [|a t']; [congruence|]. cbn [is_nil]. eexists. split; [reflexivity|]. split; [|destruct t; [congruence|discriminate]].
  intros y. rewrite <- !app_assoc. rewrite Bt. cbn [map join]. rewrite <- !app_assoc. f_equal.
  change (map check_code (c' :: l)) with (map check_code (c' :: l)). 
  assert (forall z, unindent true ([nl] ++ z) = [newline] ++ unindent true z) as -> by reflexivity. f_equal. apply Bt'.
Qed.
Definition valid_pieces : list piece := [Text (L "if (Base::valid()) {" ++ [nl] ++ L "    return true;" ++ [nl] ++ L "}" ++ [nl; nl]); Hole (T "RANGES_CHECKS");
  Text ([nl] ++ L "return false;" ++ [nl])].
Lemma valid_template : template valid_pieces.
Proof.
  unfold valid_pieces. constructor; [apply plain_no_hash, in_b_not; vm_compute; reflexivity|apply name_no_hash, in_b_not; vm_compute; reflexivity|].
  constructor. apply end_no_hash, in_b_not. vm_compute. reflexivity.
Qed.
(** The generated valid() consists of the checks of C50: it is true if the library's function says so or
    one of the conjunctions holds. There is none without such checks. *)
Theorem C56_valid_body : forall ge s checks, int_reachable s -> valid_checks ge s = Ok checks ->
  Forall (fun r => 0 <= r_since r <= never /\ 0 <= r_depr r <= never) (i_ranges s) ->
  exists body, valid_body ge s = Ok body /\ (checks = [] -> body = []) /\ (checks <> [] -> unindent true body = valid_code checks).
Proof.
  intros ge s checks R H V. apply int_reachable_inv in R. unfold valid_body. rewrite H. cbn [bind].
  destruct checks as [|c0 l0]; cbn [is_nil]; [eexists; split; [reflexivity|]; split; [auto|congruence]|].
  assert (F : Forall (fun c => c <> [] /\ Forall cond_line c) (c0 :: l0)).
  { unfold valid_checks in H. destruct (negb _); [apply Ok_inj in H; discriminate|]. apply Forall_forall. intros c I.
    eapply mapM_In in H as (r & Hr & Er); [|exact I]. apply filter_In in Hr as [Hr _].
    pose proof (inv_ranges _ R) as R0. rewrite Forall_forall in V, R0. specialize (V _ Hr). specialize (R0 _ Hr). cbv beta in V. unfold never in V.
    eapply check_conds_lines; [exact R0| | |exact Er]; unfold two64; lia. }
  destruct (checks_block _ F ltac:(discriminate)) as (t & Et & Bt & Nt). rewrite Et. cbn [bind].
  set (repl := [(L "RANGES_CHECKS", t)]). assert (Lk : lookup (T "RANGES_CHECKS") repl = t) by reflexivity.
  exists (filled (fun k => lookup k repl) [] valid_pieces). split; [|split; [discriminate|]].
  - change valid_templ with (template_text valid_pieces). apply C36_filled; [exact valid_template|].
    intros k I. cbn [holes valid_pieces In] in I. destruct I as [<-|[]]. rewrite Lk. exact Nt.
  - intros _. cbn [filled valid_pieces]. rewrite Lk. rewrite <- !app_assoc.
    assert (forall z, unindent true (L "if (Base::valid()) {" ++ [nl] ++ L "    return true;" ++ [nl] ++ L "}" ++ [nl; nl] ++ z) =
      lines ["if (Base::valid()) {"; "return true;"; "}"; ""] ++ unindent true z) as -> by reflexivity.
    rewrite unindent_indented, Bt. unfold valid_code. do 2 f_equal.
Qed.
Print Assumptions C56_valid_body.

Definition assign_pieces : list piece := [Text (L "bool updated = Base::refresh();" ++ [nl] ++ L "if (Base::valid()) {" ++ [nl] ++ L "    return updated;" ++ [nl] ++ L "};" ++ [nl] ++
  L "Base::setValue("); Hole (T "VALID_VALUE"); Text (L ");" ++ [nl] ++ L "return true;" ++ [nl])].
Lemma assign_template : template assign_pieces.
Proof.
  unfold assign_pieces. constructor; [apply plain_no_hash, in_b_not; vm_compute; reflexivity|apply name_no_hash, in_b_not; vm_compute; reflexivity|].
  constructor. apply end_no_hash, in_b_not. vm_compute. reflexivity.
Qed.
(** The generated refresh() of a field that must not be invalid assigns a constant to an invalid field; it stands
    for the lower bound of the first valid range, so it is a valid value (unless that range is empty, does not
    fit into the type or does not belong to any supported version). *)
Theorem C56_refresh_body_partial : forall ge x c s o r l body ty v, int_reachable s -> clear_bounds s ->
  c_failOnInvalid c = true -> c_fixedValue c = false -> i_ranges s = r :: l ->
  int_refresh_body c s = Ok body -> int_def_opts ge x c s false = Ok o ->
  (ge_versionDependent ge = false \/ i_validCheckVersion s = false) ->
  (forall r, In r (i_ranges s) -> exists w, supported (ge_ver ge) w /\ present_at (r_since r) (r_depr r) true w) ->
  ty = genCppIntTypeFor (i_type s) (i_length s) -> stands_for (i_type s) (r_min r) v -> cpp_holds ty v ->
  reported_range (i_type s) (r_min r) (r_max r) v ->
  exists text k, unindent true body = assign_code text /\ constant text k /\ converted ty k v /\ base_valid o v.
Proof.
  intros ge x c s o r l body ty v R Cb Cf Cx Er Hb Ho V Ex -> St Hv Rv.
  pose proof (int_reachable_inv _ R) as Ri. pose proof (inv_ranges _ Ri) as R0. rewrite Er in R0. inversion R0 as [|? ? [Q1 Q2] _]. subst.
  unfold int_refresh_body, requires_refresh, refresh_value in Hb. rewrite Cf, Cx, Er in Hb. cbn [andb negb is_nil] in Hb.
  apply bind_Ok in Hb as (t & Et & Hb). exists t, (r_min r).
  pose proof (numS_spec _ _ Q1 Et) as Ct. split; [|split; [exact Ct|split]].
  - set (repl := [(L "VALID_VALUE", t)]) in *. assert (Lk : lookup (T "VALID_VALUE") repl = t) by reflexivity.
    change refresh_templ with (template_text assign_pieces) in Hb. rewrite C36_filled in Hb; [|exact assign_template|].
    + apply Ok_inj in Hb. subst body. cbn [filled assign_pieces]. rewrite Lk. rewrite <- !app_assoc. rewrite indented_flat by (eapply constant_flat; eauto).
      assert (forall z, unindent true (L "bool updated = Base::refresh();" ++ [nl] ++ L "if (Base::valid()) {" ++ [nl] ++ L "    return updated;" ++ [nl] ++ L "};" ++ [nl] ++
        L "Base::setValue(" ++ z) = lines ["bool updated = Base::refresh();"; "if (Base::valid()) {"; "return updated;"; "};"] ++ T "Base::setValue(" ++ unindent false z) as -> by reflexivity.
      rewrite unindent_flat by (eapply constant_flat; eauto). unfold assign_code. do 3 f_equal.
    + intros k I. cbn [holes assign_pieces In] in I. destruct I as [<-|[]]. rewrite Lk. intros ->. apply constant_head in Ct as (? & ? & E & _). discriminate E.
  - split; [exact Hv|]. intros n Hn. apply stands_as_cmp in St; [|exact Q1]. subst v. unfold as_cmp. assert (n <= 64 /\ 0 <= n) as [N1 N2] by (cbn [In signed_cpp unsigned_cpp app] in Hn; repeat destruct Hn as [Hn|Hn]; try (apply pair_equal_spec in Hn as [_ <-]; lia); contradiction).
    destruct (is_big (i_type s)); [|rewrite Z.sub_diag; apply Z.mod_0_l, Z.pow_nonzero; lia].
    unfold to_u64. assert (two64 = 2 ^ (64 - n) * 2 ^ n) as -> by (rewrite <- Z.pow_add_r by lia; replace (64 - n + n) with 64 by lia; reflexivity).
    set (m := 2 ^ (64 - n)). rewrite (Z.mod_eq (r_min r) (m * 2 ^ n)) by (apply Z.neq_mul_0; split; apply Z.pow_nonzero; lia).
    set (q := r_min r / (m * 2 ^ n)). replace (r_min r - (r_min r - m * 2 ^ n * q)) with ((m * q) * 2 ^ n) by ring.
    apply Z.mod_mul, Z.pow_nonzero; lia.
  - apply (C50_valid_partial ge x c s o R Cb Ho V Ex). right. exists r. split; [rewrite Er; now left|exact Rv].
Qed.
Print Assumptions C56_refresh_body_partial.

(** ** Names *)
Theorem C56_display_name : forall displayName name, shown displayName name (genDisplayName displayName name).
Proof.
  intros d n. unfold shown, genDisplayName. destruct d as [|c d]; [auto|]. destruct (str_eqb (c :: d) (L "_")) eqn:E.
  - apply str_eqb_eq in E. right; left. auto.
  - right; right. split; [discriminate|]. split; [|reflexivity]. apply str_eqb_neq in E. exact E.
Qed.
Print Assumptions C56_display_name.
Definition name_pieces : list piece := [Text (L "/// @brief Name of the @ref "); Hole (T "SCOPE"); Text (L " field." ++ [nl] ++ L "static const char* name()" ++ [nl] ++ L "{" ++ [nl] ++
  L "    return """); Hole (T "NAME"); Text (L """;" ++ [nl] ++ L "}" ++ [nl]); Hole (T "CUSTOM"); Text [nl]].
Lemma name_template : template name_pieces.
Proof.
  unfold name_pieces. repeat (constructor; [apply plain_no_hash, in_b_not; vm_compute; reflexivity|apply name_no_hash, in_b_not; vm_compute; reflexivity|]).
  constructor. apply end_no_hash, in_b_not. vm_compute. reflexivity.
Qed.
(** The generated name() returns a string literal for the text shown *)
Theorem C56_name_function : forall scope c, ~ In newline scope -> ~ In newline (c_displayName c) -> ~ In newline (c_name c) ->
  exists body text, name_func scope c = Ok body /\ shown (c_displayName c) (c_name c) text /\
    text_rows body = [T "/// @brief Name of the @ref " ++ scope ++ T " field."; T "static const char* name()"; T "{";
                      T "    return " ++ [ascii_of_nat 34] ++ text ++ [ascii_of_nat 34] ++ T ";"; T "}"].
Proof.
  intros scope c F1 F2 F3. set (text := genDisplayName (c_displayName c) (c_name c)).
  set (repl := [(L "SCOPE", scope); (L "NAME", text); (L "CUSTOM", [])]).
  destruct (C36_rows name_pieces repl name_template) as (body & Eb & Rb). exists body, text. split; [exact Eb|]. split; [apply C56_display_name|].
  assert (Ft : flat text) by (unfold text, genDisplayName; destruct (c_displayName c); [exact F3|]; destruct (str_eqb _ _); [intros []|exact F2]).
  rewrite Rb, C36_substituted.
  - cbn [substituted name_pieces].
    change (lookup (T "SCOPE") repl) with scope. change (lookup (T "NAME") repl) with text. change (lookup (T "CUSTOM") repl) with (@nil ascii).
    clearbody text. clear -F1 Ft.
    assert (Fl : forall a b, flat a -> text_rows (a ++ newline :: b) = filter has_text [a] ++ text_rows b).
    { intros a b Fa. rewrite rows_app. f_equal. unfold text_rows. f_equal. unfold lines_of. clear -Fa. induction a as [|x a IH]; [reflexivity|]. cbn [cut_at].
      destruct (Ascii.eqb newline x) eqn:E; [apply Ascii.eqb_eq in E; subst; exfalso; apply Fa; now left|]. rewrite IH; [reflexivity|]. intros I. apply Fa. now right. }
    transitivity (text_rows ((T "/// @brief Name of the @ref " ++ scope ++ T " field.") ++ newline :: T "static const char* name()" ++ newline :: T "{" ++ newline ::
      (T "    return " ++ [ascii_of_nat 34] ++ text ++ [ascii_of_nat 34] ++ T ";") ++ newline :: T "}" ++ newline :: [] ++ newline :: [])).
    { f_equal. rewrite <- !app_assoc. reflexivity. }
    rewrite Fl by (repeat apply flat_app; first [exact F1|exact Ft|flat_lit]).
    do 2 rewrite Fl by flat_lit.
    rewrite Fl by (repeat apply flat_app; first [exact F1|exact Ft|flat_lit]).
    do 2 rewrite Fl by flat_lit. reflexivity.
  - intros k I. cbn [holes name_pieces In] in I. repeat destruct I as [<-|I]; try contradiction; [exact F1|exact Ft|intros []].
Qed.
Print Assumptions C56_name_function.
Definition ex_named (name displayName : txt) : common :=
  let c := init_common false in
  mkCommon name displayName [] SemNone (c_ovr c) [] (-1) false false false true false 0 not_deprecated false false.
(** a quotation mark in the display name is not escaped: the literal ends early *)
Theorem C56_name_function_refuted : exists body, name_func (T "x") (ex_named (T "f") (T "5" ++ [ascii_of_nat 34] ++ T " pipe")) = Ok body /\
  In (T "    return " ++ [ascii_of_nat 34] ++ T "5" ++ [ascii_of_nat 34] ++ T " pipe" ++ [ascii_of_nat 34] ++ T ";") (text_rows body).
Proof. eexists. split; [vm_compute; reflexivity|]. apply (nth_error_In _ 3). vm_compute. reflexivity. Qed.
Print Assumptions C56_name_function_refuted.
Example C56_name_ex : name_func (T "proto::field::F") (ex_named (T "f") (T "Some name")) = Ok (
  T "/// @brief Name of the @ref proto::field::F field." ++ [newline] ++ T "static const char* name()" ++ [newline] ++ T "{" ++ [newline] ++
  T "    return ""Some name"";" ++ [newline] ++ T "}" ++ [newline]).
Proof. vm_compute. reflexivity. Qed.

Lemma upper_model c : toupper c = upper c.
Proof. destruct c as [[] [] [] [] [] [] [] []]; reflexivity. Qed.
Lemma capital_model c : in_rng 65 90 c = true <-> capital c.
Proof.
unfold capital, in_rng, Common.code, nat_of_ascii. rewrite andb_true_iff, !Z.leb_le. set (n := N_of_ascii c). clearbody n.
lia. Qed.
(** Macro names: the words of a name in capital letters, joined by "_" *)
Theorem C56_macro_name : forall w ws, word_like w -> Forall (fun x => word_like x /\ exists c r, x = c :: r /\ capital c) ws ->
  genStrToMacroName (List.concat (w :: ws)) = join (T "_") (map (map upper) (w :: ws)).
Proof.
  assert (A : forall r z, Forall (fun x => ~ capital x) r -> macro_loop true (r ++ z) = map upper r ++ macro_loop true z).
  { intros r z F. induction F as [|c r N F IH]; [reflexivity|]. cbn [app macro_loop map]. rewrite IH, upper_model.
    destruct (in_rng 65 90 c) eqn:E; [apply capital_model in E; contradiction|reflexivity]. }
  assert (B : forall ws, Forall (fun x => word_like x /\ exists c r, x = c :: r /\ capital c) ws ->
     macro_loop true (List.concat ws) = flat_map (fun x => T "_" ++ map upper x) ws).
  { intros ws F. induction F as [|x ws [(c & r & -> & Fr) (c' & r' & E & Cc)] F IH]; [reflexivity|]. injection E as <- <-.
    cbn [List.concat app macro_loop flat_map map]. rewrite A by exact Fr. rewrite IH. apply capital_model in Cc. rewrite Cc. cbn [andb app]. rewrite upper_model. reflexivity. }
  assert (C : forall (ws : list txt) x, join (T "_") (x :: map (map upper) ws) = x ++ flat_map (fun x => T "_" ++ map upper x) ws).
  { induction ws as [|y ws IH]; intros x; [cbn; now rewrite app_nil_r|]. cbn [map flat_map]. rewrite <- app_assoc, <- IH. reflexivity. }
  intros w ws (c & r & -> & F) Fw. cbn [map]. rewrite C. unfold genStrToMacroName. cbn [List.concat app macro_loop andb map].
  rewrite A by exact F. rewrite B by exact Fw. now rewrite upper_model.
Qed.
Print Assumptions C56_macro_name.
Example C56_macro_ex : genStrToMacroName (T "AllMessages") = T "ALL_MESSAGES". Proof. reflexivity. Qed.

(** examples *)
Definition fail_common : common := let c := init_common false in
  mkCommon (L "f") [] [] SemNone (c_ovr c) [] (-1) false false false true false 0 not_deprecated false false.
Example C56_ex : exists s, ex_int [("type", "uint8"); ("availableLengthLimit", "true"); ("validRange", "[3, 9]"); ("endian", "little")] [] None = Ok s /\ int_reachable s /\
  int_def_opts plain_ge plain_fs fail_common s false = Ok (map L ["TExtraOpts..."; "comms::option::def::FailOnInvalid<>"; "comms::option::def::ValidNumValueRange<3, 9>"; "comms::option::def::HasCustomRefresh"; "comms::option::def::AvailableLengthLimit"]) /\
  clear_bounds s /\ i_ranges s = [mkRange 3 9 0 4294967295].
Proof.
  by_eval E. split; [exact (ex_reach _ _ _ _ E)|]. split; [vm_compute; reflexivity|].
  split; [right; left; split; [discriminate|reflexivity]|reflexivity].
Qed.
Example C56_refresh_ex : exists s, ex_int [("type", "uint8"); ("validRange", "[3, 9]")] [] None = Ok s /\ exists body, int_refresh_body fail_common s = Ok body /\ unindent true body = assign_code (T "3").
Proof. by_eval E. eexists. split; vm_compute; reflexivity. Qed.
Example C56_valid_ex : exists s, ex_int5 [("type", "uint8"); ("validCheckVersion", "true"); ("validRange", "[0, 9]")]
    [ex_child "validRange" [("value", "[20, 29]"); ("sinceVersion", "4")]] = Ok s /\ int_reachable s /\ exists body, valid_body versioned_ge s = Ok body /\
  Forall (fun r => 0 <= r_since r <= never /\ 0 <= r_depr r <= never) (i_ranges s) /\
  unindent true body = valid_code [map T ["(4 <= Base::getVersion())"; "(static_cast<ValueType>(20) <= Base::getValue())"; "(Base::getValue() <= static_cast<ValueType>(29))"]].
Proof. by_eval E. split; [exact (ex_reach5 _ _ _ E)|]. eexists. split; [vm_compute; reflexivity|]. split; [unfold never; repeat constructor; cbn; lia|vm_compute; reflexivity]. Qed.
