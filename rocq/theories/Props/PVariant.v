(** C74: variants whose members are bundles told apart by a key. *)
From Coq Require Import Lia ZifyBool ZifyNat Arith.
From Verif.Model Require Import Base Common Xml Units Field FieldCommon IntField OptCond Composite GenUtil GenComms CommsInt CommsCond CommsPrefix CommsRead CommsVariant.
From Verif.Spec Require Import Texts Ints IntSpec FieldSpec GenSpec CppSpec TokenSpec Ex CondTyping ReadCode VariantCode.
From Verif.Proofs Require Import BaseFacts CommonFacts ExFacts TokenFacts CommsIntFacts VariantFacts.
From Verif.Props Require Import PCondCode PPrefix PRead.
Local Open Scope string_scope. Local Open Scope Z_scope. Local Open Scope list_scope.

(** the names of the members in the generated code *)
Definition vnames (ms : list vmember) : list txt := map (fun f => genAccessName (f_name f)) (map vm_field ms).
(** the generated case of member [m], whose first field is [k] *)
Definition case_for (m : vmember) (k : field) : vcase := mkVCase (genAccessName (f_name (vm_field m))) (genAccessName (f_name k)) (vm_versions m).

Lemma read_inv ge ns schema versions ms out : variant_read ge ns schema versions ms = Ok out -> out <> [] ->
  (1 < length ms)%nat /\ exists k t l d, key_loop ge ms None [] = Ok (Some k) /\ key_type ge ns schema k = Ok t /\ cases_of ms = Ok (l, d) /\
    genProcessTemplate variant_read_templ ([(L "KEY_FIELD_TYPE", t); (L "CASES", genStrListToString (if d : bool then l else l ++ [default_break]) [nl] [])] ++
         (if versions then [(L "VERSION_DEP", version_check)] else [])) false = Ok out.
Proof.
  intros H N. unfold variant_read, optimized_key in H. destruct (length ms <=? 1)%nat eqn:Le; cbn [bind] in H; [apply Ok_inj in H; congruence|].
  split; [apply Nat.leb_gt, Le|]. apply bind_Ok in H as (k' & Ek & H). apply bind_Ok in Ek as (k & Ek & H'). destruct k as [k|].
  - apply bind_Ok in H' as (t & Et & H'). apply Ok_inj in H'. subst k'. apply bind_Ok in H as ([l d] & El & H). exists k, t, l, d. auto.
  - apply Ok_inj in H'. subst k'. apply Ok_inj in H. congruence.
Qed.

(** If there is a function, it selects the member by the key and reads the rest of it; the last member may accept any other key. *)
Theorem C74_read : forall ge ns schema versions ms out, variant_read ge ns schema versions ms = Ok out -> out <> [] ->
  stored_keys (map vm_field ms) -> NoDup (vnames ms) ->
  exists p, tokens out = tokens (print_vfunc p) /\ vf_versions p = versions /\
    (forall c, In c (map snd (vf_cases p)) \/ vf_default p = Some c ->
       exists m k rest, In m ms /\ bundle_of (vm_field m) = Some (k :: rest) /\ c = case_for m k) /\
    forall S (rd : vreader S) s len r, runs_variant (vnames ms) p rd s len r <-> reads_variant (map vm_field ms) rd s len r.
Proof.
  intros ge ns schema versions ms out H N St Nd. destruct (read_inv _ _ _ _ _ _ H N) as (Le & k & t & l & d & Ek & Et & El & Ho).
  destruct (cases_arranged _ _ _ El) as (cs & df & A & Ed & Tc). set (p := mkVFunc t versions cs df).
  destruct (func_tokens t (genStrListToString (if d : bool then l else l ++ [default_break]) [nl] []) p eq_refl) as (out' & Eo & To).
  { rewrite FactoryFacts.list_tokens, tokens_join, !flat_map_concat_map. cbn [p vf_cases vf_default]. now rewrite Tc. }
  change (vf_versions p) with versions in Eo. rewrite Ho in Eo. apply Ok_inj in Eo. subst out'. exists p. split; [exact To|]. split; [reflexivity|]. split.
  - intros c [I|I].
    + apply in_map_iff in I as ([label c'] & <- & I). destruct (arranged_case _ _ _ A _ _ I) as (j & m & c0 & i & rest & E & B & _ & _ & ->).
      exists m, (FInt c0 i), rest. split; [apply (nth_error_In _ _ E)|]. split; [exact B|reflexivity].
    + destruct (arranged_default _ _ _ _ A I) as (j & m & c0 & i & rest & E & _ & B & _ & ->).
      exists m, (FInt c0 i), rest. split; [apply (nth_error_In _ _ E)|]. split; [exact B|reflexivity].
  - intros S rd s len r. eapply runs_reads; eauto; [destruct ms; [cbn in Le; lia|discriminate]|]. intros j m. eapply loop_keyed; eauto.
Qed.
Print Assumptions C74_read.

(** There is no function unless every member is (or refers to) a bundle and each but the last one has a key of its own. *)
Theorem C74_when : forall ge ns schema versions ms out, variant_read ge ns schema versions ms = Ok out -> out <> [] -> stored_keys (map vm_field ms) ->
  (1 < length ms)%nat /\ Forall (fun m => bundle_of (vm_field m) <> None) ms /\
  forall j m, nth_error ms j = Some m -> (j + 1 < length ms)%nat -> exists n, fixed_key (vm_field m) n.
Proof.
  intros ge ns schema versions ms out H N St. destruct (read_inv _ _ _ _ _ _ H N) as (Le & k & t & l & d & Ek & _). split; [exact Le|]. split; [eapply loop_bundles; eauto|].
  intros j m E J. destruct (loop_keyed _ _ _ _ _ Ek _ _ E J) as (c & i & rest & B & V). exists (key_number i). apply fixed_iff; [|eauto 10].
  intros c' i' rest' B'. assert (In (vm_field m) (map vm_field ms)) as I by apply in_map, (nth_error_In _ _ E).
  destruct (St _ _ _ _ I B') as [X _]. unfold is64, int_min, int_max. lia.
Qed.
Print Assumptions C74_when.

(** The keys have the same type, the same options and the same order of bytes; these are those of the common key. *)
Theorem C74_same_keys : forall ge ns schema versions ms out, variant_read ge ns schema versions ms = Ok out -> out <> [] ->
  exists cpp opts e t p, tokens out = tokens (print_vfunc p) /\ vf_type p = t /\ tokens t = tokens (print_key ns (field_base_params schema e) cpp opts) /\
    forall m c i rest, In m ms -> bundle_of (vm_field m) = Some (FInt c i :: rest) -> (exists n, fixed_key (vm_field m) n) ->
      genCppIntTypeFor (i_type i) (i_length i) = cpp /\ key_opts ge (vm_scope m) c i = Ok opts /\ i_endian i = e.
Proof.
  intros ge ns schema versions ms out H N. destruct (read_inv _ _ _ _ _ _ H N) as (Le & [[s0 c0] i0] & t & l & d & Ek & Et & El & Ho).
  destruct (cases_arranged _ _ _ El) as (cs & df & A & Ed & Tc). set (p := mkVFunc t versions cs df).
  destruct (func_tokens t (genStrListToString (if d : bool then l else l ++ [default_break]) [nl] []) p eq_refl) as (out' & Eo & To).
  { rewrite FactoryFacts.list_tokens, tokens_join, !flat_map_concat_map. cbn [p vf_cases vf_default]. now rewrite Tc. }
  change (vf_versions p) with versions in Eo. rewrite Ho in Eo. apply Ok_inj in Eo. subst out'.
  assert (exists o, key_opts ge s0 c0 i0 = Ok o) as (o & Eq). { unfold key_type in Et. apply bind_Ok in Et as (o & Eq & _). eauto. }
  destruct (key_type_tokens ge ns schema s0 c0 i0 o Eq) as (t' & Et' & Tt). rewrite Et in Et'. apply Ok_inj in Et'. subst t'.
  exists (genCppIntTypeFor (i_type i0) (i_length i0)), o, (i_endian i0), t, p. split; [exact To|]. split; [reflexivity|]. split; [exact Tt|].
  intros m c i rest I B (n & c' & i' & rest' & s & dp & B' & F & P & R & _). rewrite B in B'. injection B' as <- <- <-.
  eapply (proj2 (loop_same _ _ _ _ _ Ek)); eauto; [unfold same_key; auto|]. apply valid_key_iff. eauto.
Qed.
Print Assumptions C74_same_keys.

(** Two members with keys of the same length have different keys.  Missing: keys of different lengths (the lengths are compared with the
    options only). *)
Lemma key_text_det i i' : is64 (i_default i) -> is64 (i_default i') -> is_unsigned (i_type i) = is_unsigned (i_type i') -> i_length i = i_length i' ->
  key_number i = key_number i' -> key_text i = key_text i'.
Proof.
  intros H H' U Le E. unfold key_text. rewrite (unsigned_same (i_type i)), (unsigned_same (i_type i')), <- U, <- Le. unfold key_number in E. rewrite <- U in E.
  destruct (is_unsigned (i_type i)); cbn [negb]; now rewrite E.
Qed.
Lemma type_signed t n t' n' : genCppIntTypeFor t n = genCppIntTypeFor t' n' -> is_unsigned t = is_unsigned t'.
Proof.
  assert (forall t n, is_unsigned t = match nth_error (genCppIntTypeFor t n) 5 with Some c => ch_eqb c "u" | None => false end) as K.
  { clear. intros t n. destruct t; try reflexivity; unfold genCppIntTypeFor, var_base; repeat match goal with |- context [if ?b then _ else _] => destruct b end; reflexivity. }
  intro H. now rewrite (K t n), (K t' n'), H.
Qed.
Theorem C74_distinct_partial : forall ge ns schema versions ms out, variant_read ge ns schema versions ms = Ok out -> out <> [] -> stored_keys (map vm_field ms) ->
  forall j j' m m' c c' i i' rest rest' n n', (j < j')%nat -> nth_error ms j = Some m -> nth_error ms j' = Some m' ->
    bundle_of (vm_field m) = Some (FInt c i :: rest) -> bundle_of (vm_field m') = Some (FInt c' i' :: rest') ->
    i_length i = i_length i' ->
    fixed_key (vm_field m) n -> fixed_key (vm_field m') n' -> n <> n'.
Proof.
  intros ge ns schema versions ms out H N St j j' m m' c c' i i' rest rest' n n' J E E' B B' Le F F' <-.
  assert (is_unsigned (i_type i) = is_unsigned (i_type i')) as U.
  { destruct (C74_same_keys _ _ _ _ _ _ H N) as (cpp & o & e & t & p & _ & _ & _ & Sk).
    destruct (Sk m c i rest (nth_error_In _ _ E) B) as (T1 & _); [eauto|]. destruct (Sk m' c' i' rest' (nth_error_In _ _ E') B') as (T2 & _); [eauto|].
    rewrite <- T2 in T1. exact (type_signed _ _ _ _ T1). }
  destruct (read_inv _ _ _ _ _ _ H N) as (_ & k & t & l & d & Ek & _ & El & _). destruct (cases_arranged _ _ _ El) as (cs & df & A & _).
  assert (forall m0, In m0 ms -> forall c i rest, bundle_of (vm_field m0) = Some (FInt c i :: rest) -> is64 (i_default i)) as Q.
  { intros m0 I c0 i0 rest0 B0. destruct (St (vm_field m0) c0 i0 rest0 ltac:(now apply in_map) B0). unfold is64, int_min, int_max. lia. }
  apply (fixed_iff _ _ (Q m (nth_error_In _ _ E))) in F as (c1 & i1 & r1 & B1 & V & ->). rewrite B in B1. injection B1 as <- <- <-.
  apply (fixed_iff _ _ (Q m' (nth_error_In _ _ E'))) in F' as (c1 & i1 & r1 & B1 & V' & Ek'). rewrite B' in B1. injection B1 as <- <- <-.
  destruct (arranged_all _ _ _ A _ _ E) as (c1 & i1 & r1 & B1 & K & _). rewrite B in B1. injection B1 as <- <- <-. destruct (K (or_intror V)) as (label & _ & Kt).
  destruct (loop_distinct _ _ _ _ _ Ek _ _ _ _ _ _ E B V Kt) as [_ D]. apply (D _ _ _ _ _ J E' B' V'). rewrite <- Kt. symmetry.
  apply key_text_det; eauto using nth_error_In.
Qed.
Print Assumptions C74_distinct_partial.

(** The other way round: members with keys of the same kind and different labels, with at most one more bundle behind them, get a function. *)
Lemma loop_used ge cpp o e last : forall ks ts prop seen,
  Forall2 (fun m t => exists c i rest, bundle_of (vm_field m) = Some (FInt c i :: rest) /\ valid_key c i = true /\ key_text i = Ok t /\ same_key ge (vm_scope m) c i cpp o e) ks ts ->
  NoDup ts -> (forall t, In t ts -> ~ In t seen) -> (forall s c i, prop = Some (s, c, i) -> same_key ge s c i cpp o e) ->
  last = [] \/ (exists m c i rest, last = [m] /\ bundle_of (vm_field m) = Some (FInt c i :: rest) /\ valid_key c i = false) ->
  prop <> None \/ ks <> [] ->
  exists s c i, key_loop ge (ks ++ last) prop seen = Ok (Some (s, c, i)) /\ same_key ge s c i cpp o e.
Proof.
  intros ks ts prop seen F. revert prop seen. induction F as [|m t ks ts (c & i & rest & B & V & Kt & Sk) F IH]; intros prop seen Nd Ns Sp La Any.
  - destruct Any as [Any|Any]; [|congruence]. destruct prop as [[[s0 c0] i0]|]; [|congruence]. exists s0, c0, i0. split; [|eauto]. cbn [app].
    destruct La as [-> | (m & c & i & rest & -> & B & V)]; [reflexivity|]. cbn [key_loop]. pose proof (dereferenced_bundle (vm_field m)) as D. rewrite B in D.
    destruct (dereferenced (vm_field m)) as [| | | | |c00 fs00 als00 vc00| | | | | |]; try discriminate D. injection D as <-. cbn [bundle_key]. now rewrite V.
  - cbn [app key_loop]. pose proof (dereferenced_bundle (vm_field m)) as D. rewrite B in D.
    destruct (dereferenced (vm_field m)) as [| | | | |c00 fs00 als00 vc00| | | | | |]; try discriminate D. injection D as <-. cbn [bundle_key]. rewrite V, Kt. cbn [bind].
    assert (mem_str t seen = false) as ->. { destruct (mem_str t seen) eqn:M; [|reflexivity]. apply mem_str_In in M. exfalso. apply (Ns t); [now left|exact M]. }
    inversion Nd as [|? ? Nt Nd']; subst.
    assert (forall t', In t' ts -> ~ In t' (t :: seen)) as Ns' by (intros t' I [<- |J]; [exact (Nt I)|exact (Ns t' (or_intror I) J)]).
    destruct prop as [[[s0 c0] i0]|].
    + assert (keys_equivalent ge s0 c0 i0 (vm_scope m) c i = Ok true) as -> by (apply equivalent_iff; do 3 eexists; split; [apply Sp; reflexivity|exact Sk]).
      cbn [bind]. apply IH; auto. left. discriminate.
    + apply IH; auto; [|left; discriminate]. intros s1 c1 i1 E. injection E as <- <- <-. exact Sk.
Qed.
Lemma cases_used ms : forall j, Forall (fun m => exists c i rest t, bundle_of (vm_field m) = Some (FInt c i :: rest) /\ key_text i = Ok t) ms ->
  forall last, last = [] \/ (exists m c i rest, last = [m] /\ bundle_of (vm_field m) = Some (FInt c i :: rest) /\ valid_key c i = false) ->
  (forall m c i rest, In m ms -> bundle_of (vm_field m) = Some (FInt c i :: rest) -> valid_key c i = true) ->
  (j <= length ms)%nat -> exists l d, cases_of (ms ++ last) = Ok (l, d).
Proof.
  induction ms as [|m ms IH]; intros j F last La Va J.
  - cbn [app]. destruct La as [-> | (m & c & i & rest & -> & B & V)]; [eexists _, _; reflexivity|]. cbn [cases_of]. pose proof (dereferenced_bundle (vm_field m)) as D. rewrite B in D.
    destruct (dereferenced (vm_field m)) as [| | | | |c00 fs00 als00 vc00| | | | | |]; try discriminate D. injection D as <-. cbn [is_nil negb]. rewrite V. cbn [orb].
    destruct (default_tokens (genAccessName (f_name (vm_field m))) (genAccessName (c_name c)) (vm_versions m)) as (t & -> & _). eexists _, _. reflexivity.
  - inversion F as [|? ? (c & i & rest & t & B & Kt) F']; subst. destruct (IH O F' last La) as (l & d & El); [intros; eapply Va; eauto; now right|lia|].
    cbn [app]. cbn [cases_of]. pose proof (dereferenced_bundle (vm_field m)) as D. rewrite B in D.
    destruct (dereferenced (vm_field m)) as [| | | | |c00 fs00 als00 vc00| | | | | |]; try discriminate D. injection D as <-. rewrite (Va m c i rest (or_introl eq_refl) B), orb_true_r, Kt. cbn [bind].
    destruct (case_tokens t (genAccessName (f_name (vm_field m))) (genAccessName (c_name c)) (vm_versions m)) as (x & -> & _). cbn [bind]. rewrite El. eexists _, _. reflexivity.
Qed.
Theorem C74_used : forall ge ns schema versions ks last ts cpp o e, ks <> [] -> (1 < length (ks ++ last))%nat ->
  Forall2 (fun m t => exists c i rest n, bundle_of (vm_field m) = Some (FInt c i :: rest) /\ fixed_key (vm_field m) n /\ key_text i = Ok t /\
    genCppIntTypeFor (i_type i) (i_length i) = cpp /\ key_opts ge (vm_scope m) c i = Ok o /\ i_endian i = e) ks ts ->
  NoDup ts ->
  last = [] \/ (exists m c i rest, last = [m] /\ bundle_of (vm_field m) = Some (FInt c i :: rest) /\ (forall n, ~ fixed_key (vm_field m) n) /\ - 2 ^ 63 <= i_default i < 2 ^ 63) ->
  exists out, variant_read ge ns schema versions (ks ++ last) = Ok out /\ out <> [].
Proof.
  intros ge ns schema versions ks last ts cpp o e Nk Le F Nd La.
  assert (last = [] \/ (exists m c i rest, last = [m] /\ bundle_of (vm_field m) = Some (FInt c i :: rest) /\ valid_key c i = false)) as La'.
  { destruct La as [La | (m & c & i & rest & El & B & Nf & Hd)]; [left; exact La|right]. exists m, c, i, rest. split; [exact El|]. split; [exact B|].
    destruct (valid_key c i) eqn:V; [|reflexivity]. exfalso. apply (Nf (key_number i)). apply fixed_iff; [|eauto 10].
    intros c' i' rest' B'. rewrite B in B'. injection B' as <- <- <-. unfold is64, int_min, int_max. lia. }
  assert (Forall2 (fun m t => exists c i rest, bundle_of (vm_field m) = Some (FInt c i :: rest) /\ valid_key c i = true /\ key_text i = Ok t /\ same_key ge (vm_scope m) c i cpp o e) ks ts) as F'.
  { refine (Forall2_weak _ _ _ _ _ F). intros m t (c & i & rest & n & B & (c' & i' & rest' & s & d & B' & A1 & A2 & A3 & _) & Kt & Sk). rewrite B in B'. injection B' as <- <- <-.
    exists c, i, rest. split; [exact B|]. split; [apply valid_key_iff; eauto|]. split; [exact Kt|exact Sk]. }
  destruct (loop_used ge cpp o e last ks ts None [] F' Nd) as (s & c & i & Ek & (_ & Eo & _)); [intros ? _ []|discriminate|exact La'|right; exact Nk|].
  assert (forall m, In m ks -> exists c i rest t, bundle_of (vm_field m) = Some (FInt c i :: rest) /\ valid_key c i = true /\ key_text i = Ok t) as P.
  { clear - F'. induction F' as [|m t ks ts (c & i & rest & B & V & Kt & _) F IH]; intros m' [<- |I] || intros m' []; eauto 10. }
  destruct (cases_used ks O) with (last := last) as (l & d & El); [| exact La' | |lia|].
  { apply Forall_forall. intros m I. destruct (P m I) as (c1 & i1 & r1 & t1 & B & _ & Kt). eauto 10. }
  { intros m c1 i1 r1 I B. destruct (P m I) as (c2 & i2 & r2 & t2 & B2 & V & _). rewrite B in B2. injection B2 as <- <- <-. exact V. }
  destruct (key_type_tokens ge ns schema s c i o Eo) as (t & Et & _). destruct (cases_arranged _ _ _ El) as (cs & df & A & Ed & Tc). set (p := mkVFunc t versions cs df).
  destruct (func_tokens t (genStrListToString (if d : bool then l else l ++ [default_break]) [nl] []) p eq_refl) as (out & Ho & To).
  { rewrite FactoryFacts.list_tokens, tokens_join, !flat_map_concat_map. cbn [p vf_cases vf_default]. now rewrite Tc. }
  exists out. unfold variant_read, optimized_key. rewrite (proj2 (Nat.leb_gt _ _) Le). assert (key_loop ge (ks ++ last) None [] = Ok (Some (s, c, i))) as Ek' by exact Ek. rewrite Ek'. cbn [bind]. rewrite Et. cbn [bind]. rewrite El. cbn [bind].
  split; [exact Ho|]. intros ->. change (tokens []) with (@nil txt) in To. unfold print_vfunc in To. rewrite tokens_l in To by (vm_compute; reflexivity). discriminate To.
Qed.
Print Assumptions C74_used.

(** ** Examples *)
Definition x_key (t n : String.string) := el "int" [("name", "Key"); ("type", t); ("defaultValue", n); ("validValue", n); ("failOnInvalid", "true")] [].
Definition x_any (t : String.string) := el "int" [("name", "Key"); ("type", t)] [].
Definition x_len := el "int" [("name", "Len"); ("type", "uint8")] [].
Definition x_data := el "data" [("name", "d"); ("lengthPrefix", "$Len")] [].
Definition x_variant (l : list (String.string * list node)) := el "variant" [("name", "V")] (map (fun p => el "bundle" [("name", fst p)] (snd p)) l).
Definition v_members (x : node) : list field := match got_field (ex_global [] x) with FVariant _ _ ms => ms | _ => [] end.
Definition plain_members (fs : list field) : list vmember := map (fun f => mkVM f None false) fs.
Definition keyed_two := [("A", [x_key "uint8" "1"; x_len]); ("B", [x_key "uint8" "2"; x_len; x_data])].
Definition x_three := x_variant (keyed_two ++ [("C", [x_any "uint8"])]).
(** an accepted variant: two keys, and a member for any other key *)
Example C74_ex : is_Ok (ex_global [] x_three) = true /\ let ms := plain_members (v_members x_three) in
  stored_keys (map vm_field ms) /\ NoDup (vnames ms) /\
  (exists fa fb fc, map vm_field ms = [fa; fb; fc] /\ fixed_key fa 1 /\ fixed_key fb 2 /\ forall n, ~ fixed_key fc n) /\
  variant_read plain_ge (T "ns") Little false ms = Ok (join [newline] (map T [
    "reset();";
    "using CommonKeyField=";
    "    comms::field::IntValue<";
    "        ns::field::FieldBase<comms::option::def::BigEndian>,";
    "        std::uint8_t,";
    "        comms::option::def::FailOnInvalid<>";
    "    >;";
    "CommonKeyField commonKeyField;"; "";
    "auto origIter = iter;";
    "auto es = commonKeyField.read(iter, len);";
    "if (es != comms::ErrorStatus::Success) {";
    "    return es;";
    "}"; "";
    "auto consumedLen = static_cast<std::size_t>(std::distance(origIter, iter));";
    "COMMS_ASSERT(consumedLen <= len);";
    "len -= consumedLen;"; "";
    "switch (commonKeyField.getValue()) {";
    "    case 1 /* 0x01 */:";
    "        {";
    "            auto& field_a = initField_a();";
    "            COMMS_ASSERT(field_a.field_key().getValue() == commonKeyField.getValue());";
    "            return field_a.template readFrom<1>(iter, len);";
    "        }";
    "    case 2 /* 0x02 */:";
    "        {";
    "            auto& field_b = initField_b();";
    "            COMMS_ASSERT(field_b.field_key().getValue() == commonKeyField.getValue());";
    "            return field_b.template readFrom<1>(iter, len);";
    "        }";
    "    default:";
    "        initField_c().field_key().setValue(commonKeyField.getValue());";
    "        return accessField_c().template readFrom<1>(iter, len);";
    "};"; "";
    "return comms::ErrorStatus::InvalidMsgData;"; ""])).
Proof.
  split; [vm_compute; reflexivity|]. intro ms. assert (map vm_field ms = v_members x_three) as Ev by (vm_compute; reflexivity). rewrite Ev.
  remember (v_members x_three) as fs eqn:Ef. vm_compute in Ef. subst fs. split; [|split; [|split]].
  - intros f c i rest I B. repeat (destruct I as [<- |I]; [cbn [bundle_of] in B; injection B as <- <- <-; cbn [i_default i_length]; lia|]). destruct I.
  - unfold vnames. rewrite Ev. vm_compute. repeat constructor; cbn; intuition discriminate.
  - do 3 eexists. split; [reflexivity|]. split; [|split].
    + do 5 eexists. split; [reflexivity|]. split; [reflexivity|]. split; [reflexivity|]. split; [reflexivity|]. vm_compute. repeat split; discriminate || reflexivity.
    + do 5 eexists. split; [reflexivity|]. split; [reflexivity|]. split; [reflexivity|]. split; [reflexivity|]. vm_compute. repeat split; discriminate || reflexivity.
    + intros n (c & i & rest & s & d & B & F & _). cbn [bundle_of] in B. injection B as <- <- <-. discriminate F.
  - vm_compute. reflexivity.
Qed.
(** another order of members, and members which are not told apart: no function *)
Example C74_none_ex : variant_read plain_ge (T "ns") Little false (plain_members (v_members (x_variant (("C", [x_any "uint8"]) :: keyed_two)))) = Ok [] /\
  variant_read plain_ge (T "ns") Little false (plain_members (v_members (x_variant (keyed_two ++ keyed_two)))) = Ok [] /\
  variant_read plain_ge (T "ns") Little false (plain_members (v_members (x_variant (keyed_two ++ [("C", [x_key "uint16" "3"])])))) = Ok [].
Proof. split; [|split]; vm_compute; reflexivity. Qed.

(** ** Where it goes wrong *)
Definition func_with (d : option vcase) : vfunc :=
  mkVFunc (print_key (T "ns") (T "comms::option::def::BigEndian") (T "std::uint8_t") (T "comms::option::def::FailOnInvalid<>")) false
    [(T "1 /* 0x01 */", mkVCase (T "a") (T "key") false); (T "2 /* 0x02 */", mkVCase (T "b") (T "key") false)] d.
(** The function reads the fields of the member after the key itself, so that code generated for reading the member (which tells a data field its length here) is not executed. *)
Theorem C74_prepare_refuted : exists f rest l code out p c, nth_error (v_members x_three) 1 = Some f /\ bundle_of f = Some rest /\
  existsb needs_prepare rest = true /\ member_codes (ex_ce plain_ge) [] rest = Ok l /\ bundle_read l = Ok code /\ code <> [] /\
  variant_read plain_ge (T "ns") Little false (plain_members (v_members x_three)) = Ok out /\ tokens out = tokens (print_vfunc p) /\
  nth_error (vf_cases p) 1 = Some (T "2 /* 0x02 */", c) /\ vc_name c = genAccessName (f_name f).
Proof.
  do 5 eexists. exists (func_with (Some (mkVCase (T "c") (T "key") false))). eexists. repeat (split; [vm_compute; reflexivity|]). split; [vm_compute; discriminate|]. repeat (split; [vm_compute; reflexivity|]). vm_compute. reflexivity.
Qed.
Print Assumptions C74_prepare_refuted.
(** The last member's key is of two bytes: it is not compared, one byte is read for it. *)
Definition x_wide := x_variant (keyed_two ++ [("C", [x_any "uint16"])]).
Theorem C74_catch_all_refuted : exists c i rest f out p, is_Ok (ex_global [] x_wide) = true /\
  nth_error (v_members x_wide) 2 = Some f /\ bundle_of f = Some (FInt c i :: rest) /\ genCppIntTypeFor (i_type i) (i_length i) = T "std::uint16_t" /\
  variant_read plain_ge (T "ns") Little false (plain_members (v_members x_wide)) = Ok out /\ tokens out = tokens (print_vfunc p) /\
  tokens (vf_type p) = tokens (print_key (T "ns") (T "comms::option::def::BigEndian") (T "std::uint8_t") (T "comms::option::def::FailOnInvalid<>")) /\
  vf_default p = Some (mkVCase (T "c") (T "key") false).
Proof.
  do 5 eexists. exists (func_with (Some (mkVCase (T "c") (T "key") false))). repeat (split; [vm_compute; reflexivity|]). vm_compute. reflexivity.
Qed.
Print Assumptions C74_catch_all_refuted.
(** The last member does not start with a number: undefined behaviour of the generator. *)
Definition x_nothing := x_variant (keyed_two ++ [("C", [el "float" [("name", "F"); ("type", "float")] []])]).
Theorem C74_not_int_refuted : is_Ok (ex_global [] x_nothing) = true /\
  variant_read plain_ge (T "ns") Little false (plain_members (v_members x_nothing)) = UB.
Proof. split; vm_compute; reflexivity. Qed.
Print Assumptions C74_not_int_refuted.
(** A last member which is told the version: the statement uses a name nobody declares. *)
Theorem C74_version_refuted : exists fa fb fc out p c, v_members x_three = [fa; fb; fc] /\
  variant_read plain_ge (T "ns") Little true [mkVM fa None false; mkVM fb None false; mkVM fc None true] = Ok out /\ tokens out = tokens (print_vfunc p) /\
  vf_default p = Some c /\ In (T "field_c") (tokens (print_default (Some c))) /\ ~ In (T "auto") (tokens (print_default (Some c))) /\
  Forall (fun x => ~ In (T "field_c") (tokens (print_case x))) (vf_cases p).
Proof.
  do 4 eexists. exists (mkVFunc (vf_type (func_with None)) true (vf_cases (func_with None)) (Some (mkVCase (T "c") (T "key") true))). eexists.
  split; [vm_compute; reflexivity|]. split; [vm_compute; reflexivity|]. split; [vm_compute; reflexivity|]. split; [vm_compute; reflexivity|].
  split; [vm_compute; tauto|]. split; [vm_compute; intuition discriminate|].
  repeat (constructor; [vm_compute; intuition discriminate|]). constructor.
Qed.
Print Assumptions C74_version_refuted.
