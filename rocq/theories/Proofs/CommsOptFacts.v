(** The options of a generated integer field one by one: length, default value,
    offsets, scaling, units. *)
From Coq Require Import Sorted ZifyBool.
From Verif.Model Require Import Base Common Units Field FieldCommon IntField GenUtil GenComms CommsInt.
From Verif.Spec Require Import Texts Ints IntSpec GenSpec CppSpec.
From Verif.Proofs Require Import BaseFacts CommonFacts IntFacts RangeFacts IntInv GenFacts MapFacts CommsIntFacts.
Local Open Scope string_scope. Local Open Scope Z_scope. Local Open Scope list_scope.

(** every option besides those of the type begins in one of these ways *)
Lemma def_options_form x c y : In y (comms_def_options x c) ->
  y = L "TExtraOpts..." \/ (exists s, y = L "typename TOpt::" ++ s) \/ (exists s, y = copt (L "H" ++ s)) \/
  (exists s, y = copt (L "Fai" ++ s)) \/ (exists s, y = copt (L "Fiel" ++ s)) \/ (exists s, y = copt (L "E" ++ s)) \/ y = copt (L "FixedValue").
Proof.
  intros H. unfold comms_def_options in H.
  repeat match type of H with In _ (add_if _ _ _) => apply in_add_if in H as [[_ ->]|H];
    [first [ do 6 right; reflexivity
           | right; right; left; eexists; reflexivity
           | do 3 right; left; eexists; reflexivity
           | do 4 right; left; eexists; reflexivity
           | do 5 right; left; eexists; reflexivity ]|] end.
  assert (B : forall l, In y ((if fs_global x then [L "TExtraOpts..."] else []) ++
           match fs_custom x with Some s => [L "typename TOpt::" ++ s] | None => [] end) ->
           y = L "TExtraOpts..." \/ (exists s, y = L "typename TOpt::" ++ s) \/ l).
  { intros l K. apply in_app_or in K as [K|K].
    - destruct (fs_global x); [|contradiction]. destruct K as [<-|[]]. auto.
    - destruct (fs_custom x) as [s|]; [|contradiction]. destruct K as [<-|[]]. right; left; eauto. }
  destruct (fs_forcedFail x).
  - apply in_app_or in H as [H|[<-|[]]]; [|do 3 right; left; eexists; reflexivity].
    apply in_add_if in H as [[_ ->]|H]; [right; right; left; eexists; reflexivity|]. now apply B.
  - apply in_add_if in H as [[_ ->]|H]; [do 3 right; left; eexists; reflexivity|].
    apply in_add_if in H as [[_ ->]|H]; [right; right; left; eexists; reflexivity|]. now apply B.
Qed.
Lemma def_options_not x c name a : In (an_option name [a]) (comms_def_options x c) ->
  In name [T "VarLength"; T "FixedLength"; T "FixedBitLength"; T "DefaultNumValue"; T "DefaultBigUnsignedNumValue"; T "NumValueSerOffset";
           T "DisplayOffset"; T "ScalingRatio"] -> False.
Proof.
  intros H N. apply def_options_form in H as [E|[[s E]|[[s E]|[[s E]|[[s E]|[[s E]|E]]]]]];
    cbn [In] in N; repeat destruct N as [<-|N]; try contradiction; discriminate E.
Qed.
(** the sources, by name *)
Lemma length_form c i y : In y (length_opts c i) -> exists s, y = copt (L "VarLength<" ++ s) \/ y = copt (L "FixedBitLength<" ++ s) \/ y = copt (L "FixedLength<" ++ s).
Proof.
  unfold length_opts, add_length_opt. destruct (is_var (i_type i)); [rewrite in_add_nil; intros ->; eexists; left; reflexivity|].
  destruct (negb _); [rewrite in_add_nil; intros ->; eexists; right; left; reflexivity|].
  destruct (negb _); [rewrite in_add_nil; intros ->; eexists; right; right; reflexivity|intros []].
Qed.
Lemma ser_form i l y : ser_opts i = Ok l -> In y l -> exists s, y = copt (L "NumValueSerOffset<" ++ s).
Proof.
  unfold ser_opts, add_ser_offset_opt. destruct (_ =? _); intros H K; [apply Ok_inj in H; subst; contradiction|].
  apply bind_Ok in H as (s & _ & H). apply Ok_inj in H. subst. apply in_add_nil in K. subst. eexists. reflexivity.
Qed.
Lemma display_form i l y : display_opts i = Ok l -> In y l -> exists s, y = copt (L "DisplayOffset<" ++ s).
Proof.
  unfold display_opts, add_display_offset_opt. destruct (_ =? _); intros H K; [apply Ok_inj in H; subst; contradiction|].
  apply bind_Ok in H as (s & _ & H). apply Ok_inj in H. subst. apply in_add_nil in K. subst. eexists. reflexivity.
Qed.
Lemma scaling_form i l y : scaling_opts i = Ok l -> In y l -> exists s, y = copt (L "ScalingRatio<" ++ s).
Proof.
  unfold scaling_opts, add_scaling_opt. destruct (i_scaling i) as [n d]. destruct ((n =? 1) && (d =? 1)); intros H K; [apply Ok_inj in H; subst; contradiction|].
  destruct ((n =? 0) || (d =? 0)); [apply Ok_inj in H; subst; contradiction|].
  apply bind_Ok in H as (s & _ & H). apply bind_Ok in H as (s2 & _ & H). apply Ok_inj in H. subst. apply in_add_nil in K. subst. eexists. reflexivity.
Qed.
Lemma default_form ge c i l y : default_opts ge c i = Ok l -> In y l -> exists s, y = copt (L "DefaultNumValue<" ++ s) \/ y = copt (L "DefaultBigUnsignedNumValue<" ++ s).
Proof.
  unfold default_opts, add_default_opt. destruct (_ && _); intros H K; [apply Ok_inj in H; subst; apply in_add_nil in K; subst; eexists; left; reflexivity|].
  destruct (_ =? _); [apply Ok_inj in H; subst; contradiction|].
  destruct (_ && _); [apply Ok_inj in H; subst; apply in_add_nil in K; subst; eexists; right; reflexivity|].
  apply bind_Ok in H as (s & _ & H). apply Ok_inj in H. subst. apply in_add_nil in K. subst. eexists. left. reflexivity.
Qed.
Lemma units_form u : genParseUnitsToOpt u <> [] -> exists s, genParseUnitsToOpt u = copt (L "Units" ++ s).
Proof. intros H. destruct (unit_options_named u) as [E|E]; [contradiction|exact E]. Qed.

(** which source an option with a given name can have *)
Record sources ge c i (o ls ld lc lf : list str) : Prop := {
  so_length : forall name a, In name [T "VarLength"; T "FixedLength"; T "FixedBitLength"] -> (In (an_option name [a]) o <-> In (an_option name [a]) (length_opts c i));
  so_default : forall name a, In name [T "DefaultNumValue"; T "DefaultBigUnsignedNumValue"] -> (In (an_option name [a]) o <-> In (an_option name [a]) lf);
  so_ser : forall a, In (an_option (T "NumValueSerOffset") [a]) o <-> In (an_option (T "NumValueSerOffset") [a]) ls;
  so_display : forall a, In (an_option (T "DisplayOffset") [a]) o <-> In (an_option (T "DisplayOffset") [a]) ld;
  so_scaling : forall a, In (an_option (T "ScalingRatio") [a]) o <-> In (an_option (T "ScalingRatio") [a]) lc;
  so_units : forall s, In (copt (L "Units" ++ s)) o <-> genParseUnitsToOpt (i_units i) = copt (L "Units" ++ s);
  so_sources : ser_opts i = Ok ls /\ display_opts i = Ok ld /\ scaling_opts i = Ok lc /\ default_opts ge c i = Ok lf }.
Ltac src_kill Ls Ld Lc Lf K :=
  destruct K as [K|[K|[K|[K|[K|[[K1 K]|[K|[[?s K]|[K|[K|[K|K]]]]]]]]]]];
  [try (exfalso; eapply def_options_not; [exact K|cbn; tauto])
  |try (apply length_form in K as [?s [K|[K|K]]]; discriminate K)
  |try (apply (ser_form _ _ _ Ls) in K as [?s K]; discriminate K)
  |try (apply (display_form _ _ _ Ld) in K as [?s K]; discriminate K)
  |try (apply (scaling_form _ _ _ Lc) in K as [?s K]; discriminate K)
  |try (destruct (units_form _ K1) as [?s ?E]; match goal with Eu : genParseUnitsToOpt _ = _ |- _ => rewrite Eu in K end; discriminate K)
  |try (apply (default_form _ _ _ _ _ Lf) in K as [?s [K|K]]; discriminate K)
  |try discriminate K |try discriminate K |try discriminate K |try discriminate K |try discriminate K].
Lemma opts_sources ge x c i o : int_def_opts ge x c i false = Ok o -> exists ls ld lc lf, sources ge c i o ls ld lc lf.
Proof.
  intros H. apply opts_from in H as (ls & ld & lc & lf & Ls & Ld & Lc & Lf & H). exists ls, ld, lc, lf.
  split; auto.
  - intros name a N. destruct (H (an_option name [a])) as (_ & I & _ & _ & _ & _ & _ & K). split; [|exact I]. intros J. specialize (K J). clear J I H.
    cbn [In] in N. repeat destruct N as [<-|N]; try contradiction; src_kill Ls Ld Lc Lf K; assumption.
  - intros name a N. destruct (H (an_option name [a])) as (_ & _ & _ & _ & _ & _ & I & K). split; [|exact I]. intros J. specialize (K J). clear J I H.
    cbn [In] in N. repeat destruct N as [<-|N]; try contradiction; src_kill Ls Ld Lc Lf K; assumption.
  - intros a. destruct (H (an_option (T "NumValueSerOffset") [a])) as (_ & _ & I & _ & _ & _ & _ & K). split; [|exact I]. intros J. specialize (K J). clear J I H.
    src_kill Ls Ld Lc Lf K; assumption.
  - intros a. destruct (H (an_option (T "DisplayOffset") [a])) as (_ & _ & _ & I & _ & _ & _ & K). split; [|exact I]. intros J. specialize (K J). clear J I H.
    src_kill Ls Ld Lc Lf K; assumption.
  - intros a. destruct (H (an_option (T "ScalingRatio") [a])) as (_ & _ & _ & _ & I & _ & _ & K). split; [|exact I]. intros J. specialize (K J). clear J I H.
    src_kill Ls Ld Lc Lf K; assumption.
  - intros s. destruct (H (copt (L "Units" ++ s))) as (_ & _ & _ & _ & _ & I & _ & K). split.
    + intros J. specialize (K J). clear J I H. src_kill Ls Ld Lc Lf K; try (symmetry; assumption).
      apply def_options_form in K as [E|[[s0 E]|[[s0 E]|[[s0 E]|[[s0 E]|[[s0 E]|E]]]]]]; discriminate E.
    + intros E. rewrite E in I. apply I. discriminate.
Qed.

(** ** Numbers *)
Lemma opt_name_inj n a b : an_option n [a] = an_option n [b] -> a = b.
Proof. unfold an_option. intros E. cbn [join] in E. now apply app_inv_head, app_inv_head, app_inv_head, app_inv_tail in E. Qed.
Lemma ser_numbers ge x c i o : is64 (i_serOffset i) -> int_def_opts ge x c i false = Ok o ->
  option_numbers o (T "NumValueSerOffset") [0] [i_serOffset i].
Proof.
  intros R H. apply opts_sources in H as (ls & ld & lc & lf & S). destruct (so_sources _ _ _ _ _ _ _ _ S) as (L1 & _).
  unfold ser_opts, add_ser_offset_opt in L1. destruct (i_serOffset i =? 0) eqn:E.
  - right. split; [|f_equal; lia]. intros a K. apply (so_ser _ _ _ _ _ _ _ _ S) in K. apply Ok_inj in L1. subst. contradiction.
  - left. apply bind_Ok in L1 as (s & Hs & L1). apply Ok_inj in L1. exists [s]. split; [repeat constructor; now apply numS_spec|].
    intros a. rewrite (so_ser _ _ _ _ _ _ _ _ S). subst ls. rewrite in_add_nil. cbn [join].
    change (copt (L "NumValueSerOffset<" ++ s ++ L ">")) with (an_option (T "NumValueSerOffset") [s]). split; [apply opt_name_inj|now intros ->].
Qed.
Lemma display_numbers ge x c i o : is64 (i_displayOffset i) -> int_def_opts ge x c i false = Ok o ->
  option_numbers o (T "DisplayOffset") [0] [i_displayOffset i].
Proof.
  intros R H. apply opts_sources in H as (ls & ld & lc & lf & S). destruct (so_sources _ _ _ _ _ _ _ _ S) as (_ & L1 & _).
  unfold display_opts, add_display_offset_opt in L1. destruct (i_displayOffset i =? 0) eqn:E.
  - right. split; [|f_equal; lia]. intros a K. apply (so_display _ _ _ _ _ _ _ _ S) in K. apply Ok_inj in L1. subst. contradiction.
  - left. apply bind_Ok in L1 as (s & Hs & L1). apply Ok_inj in L1. exists [s]. split; [repeat constructor; now apply numS_spec|].
    intros a. rewrite (so_display _ _ _ _ _ _ _ _ S). subst ld. rewrite in_add_nil. cbn [join].
    change (copt (L "DisplayOffset<" ++ s ++ L ">")) with (an_option (T "DisplayOffset") [s]). split; [apply opt_name_inj|now intros ->].
Qed.
Lemma scaling_numbers ge x c i o n d : i_scaling i = (n, d) -> is64 n -> is64 d -> n <> 0 -> d <> 0 -> int_def_opts ge x c i false = Ok o ->
  option_numbers o (T "ScalingRatio") [1; 1] [n; d].
Proof.
  intros Es Rn Rd N0 D0 H. apply opts_sources in H as (ls & ld & lc & lf & S). destruct (so_sources _ _ _ _ _ _ _ _ S) as (_ & _ & L1 & _).
  unfold scaling_opts, add_scaling_opt in L1. rewrite Es in L1. destruct ((n =? 1) && (d =? 1)) eqn:E.
  - right. split; [|f_equal; [lia|f_equal; lia]]. intros a K. apply (so_scaling _ _ _ _ _ _ _ _ S) in K. apply Ok_inj in L1. subst. contradiction.
  - left. replace ((n =? 0) || (d =? 0)) with false in L1 by lia. apply bind_Ok in L1 as (s & Hs & L1). apply bind_Ok in L1 as (s2 & Hs2 & L1).
    apply Ok_inj in L1. exists [s; s2]. split; [repeat constructor; now apply numS_spec|].
    intros a. rewrite (so_scaling _ _ _ _ _ _ _ _ S). subst lc. rewrite in_add_nil. cbn [join].
    replace (copt (L "ScalingRatio<" ++ s ++ L ", " ++ s2 ++ L ">")) with (an_option (T "ScalingRatio") [s ++ T ", " ++ s2]);
      [split; [apply opt_name_inj|now intros ->]|].
    unfold an_option. cbn [join]. rewrite <- !app_assoc. reflexivity.
Qed.

(** ** Length *)
Lemma opt2_one n a b : an_option n [a; b] = an_option n [a ++ T ", " ++ b].
Proof. unfold an_option. cbn [join]. reflexivity. Qed.
Lemma about_length_form o : about_length o -> exists name a, In name [T "VarLength"; T "FixedLength"; T "FixedBitLength"] /\ o = an_option name [a].
Proof.
  intros [(lo & hi & [(a & -> & _)|[(a & -> & _)|(a & b & -> & _)]])|(b & a & [-> | ->] & _)]; rewrite ?opt2_one;
    eexists; eexists; (split; [|reflexivity]); cbn; tauto.
Qed.
Lemma length_opts_cases c i : bits_ok (i_type i) (i_length i) (i_bitLength i) -> 
  (length_opts c i = [] /\ is_var (i_type i) = false /\ (c_inBitfield c = true -> i_bitLength i = 0) /\ type_length (i_type i) = i_length i) \/
  exists o, length_opts c i = [o] /\
   ((is_var (i_type i) = true /\ length_option o 1 (i_length i)) \/
    (is_var (i_type i) = false /\ c_inBitfield c = true /\ bit_length_option o (i_bitLength i)) \/
    (is_var (i_type i) = false /\ (c_inBitfield c = true -> i_bitLength i = 0) /\ length_option o (i_length i) (i_length i))).
Proof.
  intros (B1 & B2 & B3). pose proof (max_len_pos (i_type i)) as ML.
  assert (ML' : max_type_length (i_type i) <= 10) by (destruct (i_type i); cbn; lia).
  assert (B4 : i_bitLength i <= 1000) by (unfold bits_ok in *; lia).
  unfold length_opts, add_length_opt. destruct (is_var (i_type i)) eqn:V.
  { right. eexists. split; [reflexivity|]. left. split; [reflexivity|]. right. right. exists (genNumToStringU 1 0), (genNumToStringU (i_length i) 0).
    split; [rewrite opt2_one; unfold an_option, copt; cbn [join]; rewrite <- ?app_assoc; reflexivity|].
    split; apply numU_spec; unfold two64; lia. }
  destruct (negb ((if c_inBitfield c then i_bitLength i else 0) =? 0)) eqn:E1.
  { destruct (c_inBitfield c); [|discriminate]. right. eexists. split; [reflexivity|]. right. left. split; [reflexivity|split; [reflexivity|]].
    unfold sign_ext_param. exists (genNumToStringU (i_bitLength i) 0). split; [|apply numU_spec; unfold two64; lia].
    destruct (i_signExt i); [left|right; rewrite opt2_one]; unfold an_option, copt; cbn [join]; rewrite <- ?app_assoc; reflexivity. }
  assert (E1' : c_inBitfield c = true -> i_bitLength i = 0) by (intros K; rewrite K in E1; lia).
  destruct (negb (type_length (i_type i) =? i_length i)) eqn:E2.
  { right. eexists. split; [reflexivity|]. right. right. split; [reflexivity|split; [exact E1'|]]. unfold sign_ext_param.
    destruct (i_signExt i); [left|right; left]; exists (genNumToStringU (i_length i) 0);
      (split; [|split; [apply numU_spec; unfold two64; lia|reflexivity]]); rewrite ?opt2_one; unfold an_option, copt; cbn [join]; rewrite <- ?app_assoc; reflexivity. }
  left. repeat split; auto. lia.
Qed.
Lemma length_unique ge x c i o : int_def_opts ge x c i false = Ok o ->
  forall y, about_length y -> (In y o <-> In y (length_opts c i)).
Proof.
  intros H y A. apply opts_sources in H as (ls & ld & lc & lf & S). apply about_length_form in A as (name & a & N & ->).
  now apply (so_length _ _ _ _ _ _ _ _ S).
Qed.
Lemma length_is ge x c i o : int_inv i -> int_def_opts ge x c i false = Ok o ->
  (c_inBitfield c = false \/ is_var (i_type i) = true) ->
  serialised_length (genCppIntTypeFor (i_type i) (i_length i)) o (if is_var (i_type i) then 1 else i_length i) (i_length i).
Proof.
  intros Inv H Hb. pose proof (length_unique _ _ _ _ _ H) as U. unfold serialised_length.
  destruct (length_opts_cases c i (inv_bits _ Inv)) as [(E & V & _ & Hl)|(y & E & [(V & K)|[(V & Hc & K)|(V & Hc & K)]])]; rewrite V in *.
  - right. split; [|split; [|reflexivity]].
    + intros y Iy A. apply U in Iy; [|exact A]. rewrite E in Iy. contradiction.
    + rewrite <- Hl. destruct (i_type i); try discriminate V; cbn; tauto.
  - left. exists y. assert (A : about_length y) by (left; eauto).
    split; [apply U; [exact A|rewrite E; left; reflexivity]|]. split; [exact K|].
    intros y' Iy' A'. apply U in Iy'; [|exact A']. rewrite E in Iy'. destruct Iy' as [<-|[]]; reflexivity.
  - destruct Hb; congruence.
  - left. exists y. assert (A : about_length y) by (left; eauto).
    split; [apply U; [exact A|rewrite E; left; reflexivity]|]. split; [exact K|].
    intros y' Iy' A'. apply U in Iy'; [|exact A']. rewrite E in Iy'. destruct Iy' as [<-|[]]; reflexivity.
Qed.
Lemma bit_length_is ge x c i o : int_inv i -> int_def_opts ge x c i false = Ok o ->
  c_inBitfield c = true -> is_var (i_type i) = false -> i_bitLength i <> 0 ->
  exists y, In y o /\ bit_length_option y (i_bitLength i) /\ forall y', In y' o -> about_length y' -> y' = y.
Proof.
  intros Inv H Hc V Hn. pose proof (length_unique _ _ _ _ _ H) as U.
  destruct (length_opts_cases c i (inv_bits _ Inv)) as [(E & _ & K & _)|(y & E & [(V' & _)|[(_ & _ & K)|(_ & K & _)]])]; try congruence; try (specialize (K Hc); congruence).
  exists y. assert (A : about_length y) by (right; eauto).
  split; [apply U; [exact A|rewrite E; left; reflexivity]|]. split; [exact K|].
  intros y' Iy' A'. apply U in Iy'; [|exact A']. rewrite E in Iy'. destruct Iy' as [<-|[]]; reflexivity.
Qed.

(** ** Default value *)
Lemma default_one_inj n a v w : constant a v -> default_option (an_option n [a]) w -> In n [T "DefaultNumValue"; T "DefaultBigUnsignedNumValue"] -> w = v.
Proof.
  intros C (b & [E|E] & Cb) N; cbn [In] in N; repeat destruct N as [<-|N]; try contradiction; try discriminate E;
    apply opt_name_inj in E; subst b; eapply constant_det; eauto.
Qed.
Lemma default_opts_cases ge c i l : is64 (i_default i) -> 0 <= genSchemaVersion (ge_ver ge) < two64 -> default_opts ge c i = Ok l ->
  (l = [] /\ i_default i = 0 /\ is_version_sem (c_sem c) = false) \/
  exists o, l = [o] /\
   ((i_default i = 0 /\ is_version_sem (c_sem c) = true /\ default_option o (genSchemaVersion (ge_ver ge))) \/
    ((i_default i <> 0 \/ is_version_sem (c_sem c) = false) /\ default_option o (as_cmp (is_big (i_type i)) (i_default i)))).
Proof.
  intros R V H. unfold default_opts, add_default_opt in H. destruct (is_version_sem (c_sem c)) eqn:S.
  - rewrite andb_true_r in H. destruct (i_default i =? 0) eqn:E.
    { right. apply Ok_inj in H. subst l. eexists. split; [reflexivity|]. left. split; [lia|split; [reflexivity|]].
      eexists. split; [left; reflexivity|]. now apply numU_spec. }
    right. destruct ((i_default i <? 0) && is_big (i_type i)) eqn:E2.
    + apply Ok_inj in H. subst l. eexists. split; [reflexivity|]. right. split; [left; lia|]. eexists. split; [right; reflexivity|].
      apply andb_true_iff in E2 as [_ E2]. unfold as_cmp. rewrite E2. apply numU_spec, to_u64_range.
    + apply bind_Ok in H as (s & Hs & H). apply Ok_inj in H. subst l. eexists. split; [reflexivity|]. right. split; [left; lia|].
      eexists. split; [left; reflexivity|]. unfold as_cmp. destruct (is_big (i_type i)); [rewrite to_u64_small by (auto; lia)|]; now apply numS_spec.
  - rewrite andb_false_r in H. destruct (i_default i =? 0) eqn:E.
    { left. apply Ok_inj in H. subst l. split; [reflexivity|split; [lia|reflexivity]]. }
    right. destruct ((i_default i <? 0) && is_big (i_type i)) eqn:E2.
    + apply Ok_inj in H. subst l. eexists. split; [reflexivity|]. right. split; [left; lia|]. eexists. split; [right; reflexivity|].
      apply andb_true_iff in E2 as [_ E2]. unfold as_cmp. rewrite E2. apply numU_spec, to_u64_range.
    + apply bind_Ok in H as (s & Hs & H). apply Ok_inj in H. subst l. eexists. split; [reflexivity|]. right. split; [left; lia|].
      eexists. split; [left; reflexivity|]. unfold as_cmp. destruct (is_big (i_type i)); [rewrite to_u64_small by (auto; lia)|]; now apply numS_spec.
Qed.
Lemma default_form1 o v : default_option o v -> exists n a, In n [T "DefaultNumValue"; T "DefaultBigUnsignedNumValue"] /\ o = an_option n [a].
Proof. intros (a & [-> | ->] & _); eexists; eexists; (split; [|reflexivity]); cbn; tauto. Qed.
Lemma default_is ge x c i o : int_inv i -> 0 <= genSchemaVersion (ge_ver ge) < two64 -> int_def_opts ge x c i false = Ok o ->
  default_value o (if (i_default i =? 0) && is_version_sem (c_sem c) then genSchemaVersion (ge_ver ge) else as_cmp (is_big (i_type i)) (i_default i)).
Proof.
  intros Inv V H. destruct (inv_default _ Inv) as [R _]. apply opts_sources in H as (ls & ld & lc & lf & S).
  destruct (so_sources _ _ _ _ _ _ _ _ S) as (_ & _ & _ & L1).
  assert (U : forall y w, default_option y w -> (In y o <-> In y lf)).
  { intros y w D. apply default_form1 in D as (n & a & N & ->). now apply (so_default _ _ _ _ _ _ _ _ S). }
  destruct (default_opts_cases _ _ _ _ R V L1) as [(-> & E & Sv)|(y & -> & K)].
  - right. rewrite E, Sv. cbn. split; [intros y w Iy D; apply (U y w D) in Iy; contradiction|]. destruct (is_big (i_type i)); reflexivity.
  - left. exists y.
    assert (Q : forall w, default_option y w -> In y o /\ default_option y w /\ forall o' w', In o' o -> default_option o' w' -> o' = y).
    { intros w D. split; [apply (U y w D); left; reflexivity|split; [exact D|]]. intros o' w' I' D'. apply (U o' w' D') in I'. now destruct I' as [<-|[]]. }
    destruct K as [(E & Sv & D)|([E|Sv] & D)].
    + rewrite E, Sv. cbn [Z.eqb andb]. exact (Q _ D).
    + replace (i_default i =? 0) with false by lia. cbn [andb]. exact (Q _ D).
    + rewrite Sv, andb_false_r. exact (Q _ D).
Qed.

(** ** The C++ type *)
Lemma cpp_type_wire t len bits v : bits_ok t len bits -> wire_values t len bits v -> cpp_holds (genCppIntTypeFor t len) v.
Proof.
  intros (B1 & B2 & B3) [Ws Wu].
  assert (S : forall b n, b <= n -> signed_bits b v -> 0 < n -> signed_bits n v).
  { intros b n L0 [L1 L2] Hn. unfold signed_bits. assert (2 ^ (b - 1) <= 2 ^ (n - 1)) by (apply Z.pow_le_mono_r; lia). lia. }
  assert (U : forall b n, b <= n -> unsigned_bits b v -> unsigned_bits n v).
  { intros b n L0 [L1 L2]. unfold unsigned_bits. assert (2 ^ b <= 2 ^ n) by (apply Z.pow_le_mono_r; lia). lia. }
  assert (HS : forall ty b n, In (ty, n) signed_cpp -> 0 < n -> b <= n -> signed_bits b v -> cpp_holds ty v) by (intros; left; eauto).
  assert (HU : forall ty b n, In (ty, n) unsigned_cpp -> b <= n -> unsigned_bits b v -> cpp_holds ty v) by (intros; right; eauto).
  assert (Sg : forall t', t' = t -> In t' [Int8; Int16; Int32; Int64; Intvar] -> signed_bits (wire_bits t len bits) v) by (intros t' -> K; now apply Ws).
  assert (Ug : forall t', t' = t -> In t' [Uint8; Uint16; Uint32; Uint64; Uintvar] -> unsigned_bits (wire_bits t len bits) v) by (intros t' -> K; now apply Wu).
  destruct t; cbn [genCppIntTypeFor wire_bits max_type_length] in *; unfold var_base;
    first [specialize (Sg _ eq_refl ltac:(cbn; tauto)) | specialize (Ug _ eq_refl ltac:(cbn; tauto))].
  - eapply (HS _ _ 8); [|lia| |exact Sg]; [cbn; tauto|lia].
  - eapply (HU _ _ 8); [| |exact Ug]; [cbn; tauto|lia].
  - eapply (HS _ _ 16); [|lia| |exact Sg]; [cbn; tauto|lia].
  - eapply (HU _ _ 16); [| |exact Ug]; [cbn; tauto|lia].
  - eapply (HS _ _ 32); [|lia| |exact Sg]; [cbn; tauto|lia].
  - eapply (HU _ _ 32); [| |exact Ug]; [cbn; tauto|lia].
  - eapply (HS _ _ 64); [|lia| |exact Sg]; [cbn; tauto|lia].
  - eapply (HU _ _ 64); [| |exact Ug]; [cbn; tauto|lia].
  - destruct (len <=? 2) eqn:E2; [eapply (HS _ _ 16); [|lia| |exact Sg]; [cbn; tauto|lia]|].
    destruct (len <=? 4) eqn:E4; [eapply (HS _ _ 32); [|lia| |exact Sg]; [cbn; tauto|lia]|eapply (HS _ _ 64); [|lia| |exact Sg]; [cbn; tauto|lia]].
  - destruct (len <=? 2) eqn:E2; [eapply (HU _ _ 16); [| |exact Ug]; [cbn; tauto|lia]|].
    destruct (len <=? 4) eqn:E4; [eapply (HU _ _ 32); [| |exact Ug]; [cbn; tauto|lia]|eapply (HU _ _ 64); [| |exact Ug]; [cbn; tauto|lia]].
Qed.

(** ** Generation does not fail *)
Definition inner64 (z : Z) : Prop := int_min < z < int_max.
Lemma numS_Ok z : inner64 z -> exists s, genNumToStringS z = Ok s.
Proof. intros [H1 H2]. destruct (constant_signed z) as (s & Hs & _); [lia|eauto]. Qed.
Lemma inner_is64 z : inner64 z -> is64 z.
Proof. unfold inner64, is64. lia. Qed.
Lemma need_merge_Ok big a b : inner64 (r_max a) -> exists m, need_merge big a b = Ok m.
Proof.
  intros [H1 H2]. unfold need_merge. destruct big; cbn [bind]; [eauto|]. unfold s64.
  replace ((int_min <=? r_max a + 1) && (r_max a + 1 <=? int_max)) with true by lia. cbn [bind]. eauto.
Qed.
Lemma unify_from_Ok big l : forall a, Forall (fun r => inner64 (r_min r) /\ inner64 (r_max r)) (a :: l) ->
  exists l', unify_from big a l = Ok l' /\ Forall (fun r => inner64 (r_min r) /\ inner64 (r_max r)) l'.
Proof.
  induction l as [|b l IH]; intros a F; cbn [unify_from]; [eauto|].
  inversion F as [|? ? Fa Fl]; subst. inversion Fl as [|? ? Fb Fl']; subst.
  destruct (need_merge_Ok big a b (proj2 Fa)) as [m Hm]. rewrite Hm. cbn [bind]. destruct m.
  - apply IH. constructor; [|exact Fl']. destruct (_ <? _); [cbn; tauto|exact Fa].
  - destruct (IH b Fl) as (l' & Hl & F'). rewrite Hl. cbn [bind]. eexists. split; [reflexivity|]. now constructor.
Qed.
Lemma range_opt_Ok big r : inner64 (r_min r) -> inner64 (r_max r) -> exists s, range_opt big r = Ok s.
Proof.
  intros H1 H2. unfold range_opt. destruct (_ && _); [eauto|]. destruct (numS_Ok _ H1) as [a Ha]. destruct (numS_Ok _ H2) as [b Hb].
  destruct (_ =? _); rewrite Ha; cbn [bind]; [eauto|]. rewrite Hb. cbn [bind]. eauto.
Qed.
Lemma ranges_fold_Ok ge big check l : forall acc, Forall (fun r => inner64 (r_min r) /\ inner64 (r_max r)) l ->
  exists res, foldM (ranges_step ge big check) l acc = Ok res.
Proof.
  induction l as [|r l IH]; intros [[o s] a] F; cbn [foldM]; [eauto|]. inversion F as [|? ? [F1 F2] Fl]; subst.
  unfold ranges_step at 1. destruct (negb _); [cbn [bind]; now apply IH|]. destruct (_ && _); [cbn [bind]; now apply IH|].
  destruct (range_opt_Ok big r F1 F2) as [y Hy]. rewrite Hy. cbn [bind]. now apply IH.
Qed.
Lemma int_def_opts_Ok ge x c i vk : inner64 (i_serOffset i) -> inner64 (i_displayOffset i) -> inner64 (fst (i_scaling i)) -> inner64 (snd (i_scaling i)) ->
  inner64 (i_default i) -> Forall (fun r => inner64 (r_min r) /\ inner64 (r_max r)) (i_ranges i) ->
  exists o, int_def_opts ge x c i vk = Ok o.
Proof.
  intros H1 H2 H3 H4 H5 H6. unfold int_def_opts.
  assert (A1 : forall o, exists o', add_ser_offset_opt i o = Ok o').
  { intros o. unfold add_ser_offset_opt. destruct (_ =? _); [eauto|]. destruct (numS_Ok _ H1) as [s Hs]. rewrite Hs. cbn [bind]. eauto. }
  assert (A2 : forall o, exists o', add_display_offset_opt i o = Ok o').
  { intros o. unfold add_display_offset_opt. destruct (_ =? _); [eauto|]. destruct (numS_Ok _ H2) as [s Hs]. rewrite Hs. cbn [bind]. eauto. }
  assert (A3 : forall o, exists o', add_scaling_opt i o = Ok o').
  { intros o. unfold add_scaling_opt. destruct (i_scaling i) as [n d]. cbn [fst snd] in *. destruct (_ && _); [eauto|]. destruct (_ || _); [eauto|].
    destruct (numS_Ok _ H3) as [s Hs]. destruct (numS_Ok _ H4) as [s2 Hs2]. rewrite Hs. cbn [bind]. rewrite Hs2. cbn [bind]. eauto. }
  assert (A4 : forall o, exists o', add_default_opt ge c i o = Ok o').
  { intros o. unfold add_default_opt. destruct (_ && _); [eauto|]. destruct (_ =? _); [eauto|]. destruct (_ && _); [eauto|].
    destruct (numS_Ok _ H5) as [s Hs]. rewrite Hs. cbn [bind]. eauto. }
  assert (A5 : forall o, exists o', add_ranges_opt ge i o = Ok o').
  { intros o. unfold add_ranges_opt. destruct (is_nil (i_ranges i)) eqn:En; [eauto|].
    assert (Q : exists l, (if valid_check_version ge i then Ok (i_ranges i) else unify (gen_big_unsigned i) (i_ranges i)) = Ok l /\
                Forall (fun r => inner64 (r_min r) /\ inner64 (r_max r)) l).
    { destruct (valid_check_version ge i); [eauto|]. unfold unify. destruct (i_ranges i) as [|r l]; [eauto|]. now apply unify_from_Ok. }
    destruct Q as (l & Hl & F). rewrite Hl. cbn [bind]. destruct (ranges_fold_Ok ge (gen_big_unsigned i) (valid_check_version ge i) l (o, false, false) F) as [[[o' s] a] Hf].
    rewrite Hf. cbn [bind]. eauto. }
  destruct (A1 (add_length_opt c i (comms_def_options x c))) as [o1 ->]. cbn [bind].
  destruct (A2 o1) as [o2 ->]. cbn [bind]. destruct (A3 o2) as [o3 ->]. cbn [bind]. destruct vk; [eauto|].
  destruct (A4 (add_units_opt i o3)) as [o4 ->]. cbn [bind]. destruct (A5 o4) as [o5 ->]. cbn [bind]. eauto.
Qed.

(** ** Special values *)
Lemma lt_special_spec u a b : is64 (v_value (snd a)) -> is64 (v_value (snd b)) ->
  lt_special u a b = true -> as_cmp u (v_value (snd a)) <= as_cmp u (v_value (snd b)).
Proof.
  intros Ra Rb. unfold lt_special, as_cmp. destruct (v_value (snd a) =? v_value (snd b)) eqn:E; [replace (v_value (snd b)) with (v_value (snd a)) by lia; lia|].
  destruct u; lia.
Qed.
Lemma special_funcs_spec ge i l : int_inv i -> special_funcs ge i = Ok l ->
  forall f t, In (f, t) l <-> exists n s, In (n, s) (i_specials i) /\ genDoesElementExist (ge_ver ge) (v_since s) (v_depr s) true = true /\
    f = L "value" ++ genClassName n /\
    (if is_big (i_type i) then Ok (genNumToStringU (to_u64 (v_value s)) 0) else genNumToStringS (v_value s)) = Ok t.
Proof.
  intros Inv H f t. unfold special_funcs in H. split.
  - intros K. destruct (mapM_In _ _ _ _ H K) as ([n s] & I & E). apply filter_In in I as [I Ex]. cbn [fst snd] in *.
    apply bind_Ok in E as (v & Hv & E). apply Ok_inj in E. apply pair_equal_spec in E as [<- <-]. exists n, s.
    split; [|auto]. unfold specials_sorted in I. now apply sort_In in I.
  - intros (n & s & I & Ex & -> & Ht). destruct (mapM_In_fwd _ _ _ (n, s) H) as ([f' t'] & Ij & E).
    + apply filter_In. split; [|exact Ex]. unfold specials_sorted. now apply sort_In.
    + cbn [fst snd] in E. rewrite Ht in E. cbn [bind] in E. apply Ok_inj in E. now rewrite E.
Qed.

Lemma as_cmp_inj u x y : is64 x -> is64 y -> as_cmp u x = as_cmp u y -> x = y.
Proof.
  intros X Y. unfold as_cmp. destruct u; [|auto]. unfold is64 in *. intros E.
  destruct (Z_lt_ge_dec x 0), (Z_lt_ge_dec y 0);
    repeat match goal with
    | H : ?z < 0 |- _ => rewrite (to_u64_neg z) in E by lia; revert H
    | H : ?z >= 0 |- _ => rewrite (to_u64_nonneg_s z) in E by lia; revert H end; unfold two64, int_min, int_max in *; lia.
Qed.
Lemma lt_special_iff u a b : is64 (v_value (snd a)) -> is64 (v_value (snd b)) ->
  (lt_special u a b = true <-> as_cmp u (v_value (snd a)) < as_cmp u (v_value (snd b)) \/
     (as_cmp u (v_value (snd a)) = as_cmp u (v_value (snd b)) /\ str_ltb (fst a) (fst b) = true)).
Proof.
  intros Ra Rb. unfold lt_special. destruct (v_value (snd a) =? v_value (snd b)) eqn:E.
  - replace (v_value (snd b)) with (v_value (snd a)) by lia. split; [auto|]. intros [H|[_ H]]; [lia|exact H].
  - assert (N : as_cmp u (v_value (snd a)) <> as_cmp u (v_value (snd b))) by (intros K; apply as_cmp_inj in K; auto; lia).
    unfold as_cmp in *. destruct u; lia.
Qed.
Lemma specials_sort u l : Forall (fun x => is64 (v_value (snd x))) l ->
  StronglySorted (fun a b => lt_special u b a = false) (isort (lt_special u) l).
Proof.
  intros F. apply (sort_sorted (lt_special u) (fun x => is64 (v_value (snd x)))); [| |exact F].
  - intros a b Ra Rb H. apply not_true_is_false. intros K. apply lt_special_iff in H; auto. apply lt_special_iff in K; auto.
    destruct H as [H|[H1 H2]], K as [K|[K1 K2]]; try lia.
    pose proof (str_ltb_trans _ _ _ H2 K2) as T0. rewrite str_ltb_irrefl in T0. discriminate.
  - intros a b c Ra Rb Rc H K. apply not_true_is_false. intros Q. apply lt_special_iff in Q; auto.
    apply not_true_iff_false in H, K. rewrite lt_special_iff in H, K by auto.
    destruct Q as [Q|[Q1 Q2]]; [lia|].
    assert (E1 : as_cmp u (v_value (snd a)) = as_cmp u (v_value (snd b))) by lia.
    assert (E2 : as_cmp u (v_value (snd b)) = as_cmp u (v_value (snd c))) by lia.
    assert (B1 : str_ltb (fst b) (fst a) = false) by (apply not_true_is_false; intros B; apply H; right; split; [lia|exact B]).
    assert (B2 : str_ltb (fst c) (fst b) = false) by (apply not_true_is_false; intros B; apply K; right; split; [lia|exact B]).
    destruct (str_ltb (fst a) (fst b)) eqn:C1.
    + pose proof (str_ltb_trans _ _ _ Q2 C1) as T0. congruence.
    + pose proof (str_ltb_total _ _ C1 B1) as T0. congruence.
Qed.
