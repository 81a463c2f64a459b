(** Proofs about Model/CommsVariant.v. *)
From Coq Require Import Lia ZifyBool ZifyNat Arith.
From Verif.Model Require Import Base Common Units Field IntField GenUtil GenComms CommsInt CommsVariant.
From Verif.Spec Require Import Texts Ints IntSpec GenSpec TokenSpec CppSpec CondTyping ReadCode VariantCode.
From Verif.Proofs Require Import BaseFacts CommonFacts GenFacts TemplateFacts CommsIntFacts CondCodeFacts TokenFacts FactoryFacts PrefixFacts ReadFacts EnumGenFacts.
From Verif.Props Require Import PTemplate.
Local Open Scope string_scope. Local Open Scope Z_scope. Local Open Scope list_scope.

(** ** Keys *)
Definition key_number (i : int_state) : Z := if is_unsigned (i_type i) then to_u64 (i_default i) else i_default i.
Lemma key_stands i n : is64 (i_default i) -> CondTyping.stands_for (i_type i) (i_default i) n <-> n = key_number i.
Proof.
  intro H. unfold CondTyping.stands_for, key_number, is64, int_min, int_max, to_u64, two64 in *. destruct (is_unsigned (i_type i)); [|lia].
  change (2 ^ 64) with 18446744073709551616. change (2 ^ 63) with 9223372036854775808. split.
  - intros (_ & Hn & E). apply Z.mod_divide in E; [|lia]. destruct E as (k & E).
    replace (i_default i) with (n + (- k) * 18446744073709551616) by lia. rewrite Z_mod_plus_full. symmetry. apply Z.mod_small. lia.
  - intros ->. pose proof (Z.mod_pos_bound (i_default i) 18446744073709551616). split; [lia|]. split; [lia|].
    rewrite Zminus_mod_idemp_l. replace (i_default i - i_default i) with 0 by lia. reflexivity.
Qed.
Lemma dereferenced_bundle f : bundle_of f = match dereferenced f with FBundle _ ms _ _ => Some ms | _ => None end.
Proof. revert f. fix IH 1. intros []; try reflexivity. cbn [bundle_of dereferenced]. apply IH. Qed.
Lemma valid_key_iff c i : valid_key c i = true <-> c_failOnInvalid c = true /\ c_pseudo c = false /\ exists s d, i_ranges i = [mkRange (i_default i) (i_default i) s d].
Proof.
  unfold valid_key. rewrite !andb_true_iff, negb_true_iff. split.
  - intros [[H1 H2] H3]. split; [exact H1|]. split; [exact H2|]. destruct (i_ranges i) as [|[a b s d] [|]]; try discriminate H3.
    cbn [r_min r_max] in H3. apply andb_true_iff in H3 as [E1 E2]. apply Z.eqb_eq in E1, E2. exists s, d. congruence.
  - intros (H1 & H2 & s & d & E). rewrite E. cbn [r_min r_max]. rewrite !Z.eqb_refl. auto.
Qed.
Lemma fixed_iff f n : (forall c i rest, bundle_of f = Some (FInt c i :: rest) -> is64 (i_default i)) ->
  fixed_key f n <-> exists c i rest, bundle_of f = Some (FInt c i :: rest) /\ valid_key c i = true /\ n = key_number i.
Proof.
  intro H. unfold fixed_key. split.
  - intros (c & i & rest & s & d & E & F & P & R & St). exists c, i, rest. split; [exact E|]. split; [apply valid_key_iff; eauto|].
    apply key_stands; eauto.
  - intros (c & i & rest & E & V & ->). apply valid_key_iff in V as (F & P & s & d & R). exists c, i, rest, s, d. repeat (split; [assumption|]).
    apply key_stands; eauto.
Qed.
Lemma unsigned_same t : is_unsigned_type t = is_unsigned t. Proof. destruct t; reflexivity. Qed.
(** *)
Lemma comment_det s v w : constant_with_comment s v -> constant_with_comment s w -> v = w.
Proof.
  assert (forall a b x y, constant (a ++ T " /* " ++ b) x -> constant a y -> False) as N.
  { intros a b x y H _. apply (constant_no " "%char) in H; [|vm_compute; auto 20]. apply H. apply in_or_app. right. left. reflexivity. }
  intros [A | (a & b & -> & A & _)] [B | (a' & b' & E & B & _)].
  - eapply constant_det; eauto.
  - subst s. exfalso. rewrite app_assoc in A. eapply (N _ (b' ++ T " */")); [|exact B]. rewrite <- app_assoc in A. exact A.
  - exfalso. eapply N; eauto.
  - assert (a = a' /\ T "/* " ++ b ++ T " */" = T "/* " ++ b' ++ T " */") as [-> _].
    { apply (cut_unique " "%char); [eapply constant_no; [exact A|vm_compute; auto 20]|eapply constant_no; [exact B|vm_compute; auto 20]|exact E]. }
    eapply constant_det; eauto.
Qed.
Lemma numeral_no_star b x v : 1 < b <= 16 -> numeral b x v -> ~ In "*"%char x.
Proof. intros B N I. apply numeral_spec in N as (_ & H & _); [|lia]. rewrite Forall_forall in H. apply H in I. assert (16 <= digit_val "*"%char) by (vm_compute; discriminate). lia. Qed.
Lemma numU_filled v w : 0 <= v < two64 -> 0 <= w -> genNumToStringU v w <> [] /\ ~ In newline (genNumToStringU v w) /\ ~ In "*"%char (genNumToStringU v w).
Proof.
  intros H W. destruct (EnumGenFacts.constant_text _ _ (constant_unsigned v w H W)) as (F & _ & _ & N). split; [exact N|]. split; [exact F|].
  unfold genNumToStringU. pose proof (numeral_no_star 10 _ _ ltac:(lia) (proj1 (dec_str_spec v H))) as A.
  pose proof (numeral_no_star 16 _ _ ltac:(lia) (pad0_numeral w _ _ (hex_str_spec true v H))) as B.
  assert (forall c : bool, ~ In "*"%char (if c then L "U" else L "ULL")) as S by (intros []; intro I; cbn in I; intuition discriminate).
  assert (~ In "*"%char (L "0x") /\ ~ In "*"%char (L "U")) as [X1 X2] by (split; intro I; cbn in I; intuition discriminate).
  destruct ((w =? 0) && (v <=? 65535)); [exact A|]. destruct ((w =? 0) && (v <=? 4294967295)).
  - intro I. apply in_app_iff in I as [I|I]; auto.
  - intro I. apply in_app_iff in I as [I|I]; [auto|]. apply in_app_iff in I as [I|I]; [auto|].
    destruct ((0 <? w) && (v <=? 65535)); [destruct I|]. exact (S _ I).
Qed.
Lemma key_text_spec i t v : is64 (i_default i) -> 0 <= i_length i -> key_text i = Ok t -> constant_with_comment t v <-> v = key_number i.
Proof.
  intros H Hl E. assert (constant_with_comment t (key_number i)) as C; [|split; [intro; eapply comment_det; eauto|intros ->; exact C]].
  unfold key_text in E. rewrite unsigned_same in E. unfold key_number. destruct (is_unsigned (i_type i)); cbn [negb] in E.
  - right. assert (0 <= to_u64 (i_default i) < two64) as B by (unfold to_u64, two64; apply Z.mod_pos_bound; lia).
    set (a := genNumToStringU (to_u64 (i_default i)) 0) in *. set (b := genNumToStringU (to_u64 (i_default i)) (i_length i * 2)) in *.
    destruct (numU_filled _ 0 B ltac:(lia)) as (Na & Fa & _). destruct (numU_filled _ (i_length i * 2) B ltac:(lia)) as (Nb & Fb & Sb). fold a in Na, Fa. fold b in Nb, Fb, Sb.
    exists a, b. split; [|split; [now apply numU_spec|exact Sb]]. clearbody a b.
    change key_value_templ with (template_text [Text []; Hole (T "DEC"); Text (T " /* "); Hole (T "HEX"); Text (T " */")]) in E.
    assert (forall k, In k [T "DEC"; T "HEX"] -> lookup k [(L "DEC", a); (L "HEX", b)] <> []) as N by (intros k [<- |[<- |[]]]; [exact Na|exact Nb]).
    rewrite C36_filled in E; [|apply (cut_template_spec 10 key_value_templ); vm_compute; reflexivity|exact N].
    apply Ok_inj in E. rewrite C36_substituted in E. 2: { intros k [<- |[<- |[]]]; [exact Fa|exact Fb]. }
    rewrite <- E. reflexivity.
  - left. now apply numS_spec.
Qed.

(** ** The text *)
Definition vcase_of (m : vmember) (c : common) : vcase := mkVCase (genAccessName (f_name (vm_field m))) (genAccessName (c_name c)) (vm_versions m).
Lemma versions_look b n : lookup (L "VERSION_ASSIGN") (version_assign b n) = print_versions (mkVCase n [] b).
Proof. unfold version_assign, print_versions. cbn [vc_versions vc_name]. destruct b; reflexivity. Qed.
Definition case_marks (v n k s : txt) := [(T "V", v); (T "F", T "field_" ++ n); (T "I", T "initField_" ++ n); (T "A", T "accessField_" ++ n); (T "K", T "field_" ++ k); (T "S", s)].
Definition sub_case := [Text (T "case "); Hole (T "V"); Text (T ":" ++ [nl] ++ T "    {" ++ [nl] ++ T "        auto& "); Hole (T "F"); Text (T " = "); Hole (T "I");
  Text (T "();" ++ [nl] ++ T "        COMMS_ASSERT("); Hole (T "F"); Text (T "."); Hole (T "K"); Text (T "().getValue() == commonKeyField.getValue());" ++ [nl] ++ T "        ");
  Hole (T "S"); Text ([nl] ++ T "        return "); Hole (T "F"); Text (T ".template readFrom<1>(iter, len);" ++ [nl] ++ T "    }")].
Definition sub_case' := [Text (T "case "); Hole (T "V"); Text (T ": { auto& "); Hole (T "F"); Text (T " = "); Hole (T "I");
  Text (T "(); COMMS_ASSERT("); Hole (T "F"); Text (T "."); Hole (T "K"); Text (T "().getValue() == commonKeyField.getValue());" ++ [nl]);
  Hole (T "S"); Text ([nl] ++ T "return "); Hole (T "F"); Text (T ".template readFrom<1>(iter, len); }")].
Lemma case_tokens v n k b : exists out, genProcessTemplate case_templ ([(L "VAL", v); (L "BUNDLE_NAME", n); (L "KEY_NAME", k)] ++ version_assign b n) false = Ok out /\
  tokens out = tokens (print_case (v, mkVCase n k b)).
Proof.
  fill 30%nat. exists out. split; [reflexivity|]. rewrite Tt. clear E Tt out.
  match goal with |- tokens ?x = _ => assert (x = substituted (fun h => lookup h (case_marks v n k (print_versions (mkVCase n k b)))) sub_case) as -> end.
  { change (print_versions (mkVCase n k b)) with (print_versions (mkVCase n [] b)). rewrite <- versions_look. generalize (version_assign b n). intro w.
    cbn [substituted sub_case]. reflexivity. }
  match goal with |- _ = tokens ?x => assert (x = substituted (fun h => lookup h (case_marks v n k (print_versions (mkVCase n k b)))) sub_case') as -> end.
  { unfold print_case. cbn [vc_name vc_key]. generalize (print_versions (mkVCase n k b)). intro w. cbn [substituted sub_case']. reflexivity. }
  apply same_tokens; [vm_compute; reflexivity|reflexivity].
Qed.
Definition sub_default := [Text (T "default:" ++ [nl] ++ T "    "); Hole (T "I"); Text (T "()."); Hole (T "K"); Text (T "().setValue(commonKeyField.getValue());" ++ [nl] ++ T "    ");
  Hole (T "S"); Text ([nl] ++ T "    return "); Hole (T "A"); Text (T "().template readFrom<1>(iter, len);")].
Definition sub_default' := [Text (T "default: "); Hole (T "I"); Text (T "()."); Hole (T "K"); Text (T "().setValue(commonKeyField.getValue());" ++ [nl]);
  Hole (T "S"); Text ([nl] ++ T "return "); Hole (T "A"); Text (T "().template readFrom<1>(iter, len);")].
Lemma default_tokens n k b : exists out, genProcessTemplate default_templ ([(L "BUNDLE_NAME", n); (L "KEY_NAME", k)] ++ version_assign b n) false = Ok out /\
  tokens out = tokens (print_default (Some (mkVCase n k b))).
Proof.
  fill 30%nat. exists out. split; [reflexivity|]. rewrite Tt. clear E Tt out.
  match goal with |- tokens ?x = _ => assert (x = substituted (fun h => lookup h (case_marks [] n k (print_versions (mkVCase n k b)))) sub_default) as -> end.
  { change (print_versions (mkVCase n k b)) with (print_versions (mkVCase n [] b)). rewrite <- versions_look. generalize (version_assign b n). intro w.
    cbn [substituted sub_default]. reflexivity. }
  match goal with |- _ = tokens ?x => assert (x = substituted (fun h => lookup h (case_marks [] n k (print_versions (mkVCase n k b)))) sub_default') as -> end.
  { unfold print_default. cbn [vc_name vc_key]. generalize (print_versions (mkVCase n k b)). intro w. cbn [substituted sub_default']. reflexivity. }
  apply same_tokens; [vm_compute; reflexivity|reflexivity].
Qed.

(** ** The cases *)
Inductive arranged : list vmember -> list (txt * vcase) -> option vcase -> Prop :=
| ar_nil : arranged [] [] None
| ar_case m ms c i rest v cs d : bundle_of (vm_field m) = Some (FInt c i :: rest) -> ms <> [] \/ valid_key c i = true -> key_text i = Ok v ->
    arranged ms cs d -> arranged (m :: ms) ((v, vcase_of m c) :: cs) d
| ar_default m c i rest : bundle_of (vm_field m) = Some (FInt c i :: rest) -> valid_key c i = false -> arranged [m] [] (Some (vcase_of m c)).
Lemma nil_iff {A} (l : list A) : is_nil l = true <-> l = [].
Proof. destruct l; split; intro H; try reflexivity; discriminate H. Qed.
Lemma cases_arranged ms : forall l d, CommsVariant.cases_of ms = Ok (l, d) -> exists cs df, arranged ms cs df /\ d = (match df with Some _ => true | None => false end) /\
  map tokens (if d : bool then l else l ++ [default_break]) = map tokens (map print_case cs ++ [print_default df]).
Proof.
  induction ms as [|m ms IH]; intros l d H; cbn [CommsVariant.cases_of] in H.
  - apply Ok_inj, pair_equal_spec in H as [<- <-]. exists [], None. split; [constructor|]. split; [reflexivity|]. vm_compute. reflexivity.
  - pose proof (dereferenced_bundle (vm_field m)) as B. destruct (dereferenced (vm_field m)) as [| | | | |c00 [|[c i| | | | | | | | | | |] rest] als00 vc00| | | | | |]; try discriminate H.
    destruct (negb (is_nil ms) || valid_key c i) eqn:G.
    + apply bind_Ok in H as (v & Ev & H). apply bind_Ok in H as (t & Et & H). apply bind_Ok in H as ([l' d'] & El & H).
      apply Ok_inj, pair_equal_spec in H as [<- <-]. destruct (IH _ _ El) as (cs & df & A & Ed & Et').
      destruct (case_tokens v (genAccessName (f_name (vm_field m))) (genAccessName (c_name c)) (vm_versions m)) as (t' & E' & Tt). rewrite E' in Et. apply Ok_inj in Et. subst t'.
      exists ((v, vcase_of m c) :: cs), df. split; [|split; [exact Ed|]].
      * econstructor; eauto. apply orb_true_iff in G as [G|G]; [left|right; exact G]. intros ->. discriminate.
      * transitivity (tokens t :: map tokens (if d' then l' else l' ++ [default_break])); [destruct d'; reflexivity|]. rewrite Et', Tt. reflexivity.
    + apply orb_false_iff in G as [G1 G2]. apply negb_false_iff, nil_iff in G1. subst ms. apply bind_Ok in H as (t & Et & H). apply Ok_inj, pair_equal_spec in H as [<- <-].
      destruct (default_tokens (genAccessName (f_name (vm_field m))) (genAccessName (c_name c)) (vm_versions m)) as (t' & E' & Tt). rewrite E' in Et. apply Ok_inj in Et. subst t'.
      exists [], (Some (vcase_of m c)). split; [econstructor; eauto|]. split; [reflexivity|]. change (tokens t :: [] = tokens (print_default (Some (vcase_of m c))) :: []). now rewrite Tt.
Qed.
Definition keyed (m : vmember) : Prop := exists c i rest, bundle_of (vm_field m) = Some (FInt c i :: rest) /\ valid_key c i = true.
Lemma bundle_key_iff fs c i : bundle_key fs = Some (c, i) <-> exists rest, fs = FInt c i :: rest /\ valid_key c i = true.
Proof.
  split.
  - destruct fs as [|[c' i'| | | | | | | | | | |] fs]; try discriminate. cbn [bundle_key]. destruct (valid_key c' i') eqn:V; [|discriminate].
    intro H. injection H as -> ->. eauto.
  - intros (rest & -> & V). cbn [bundle_key]. now rewrite V.
Qed.
Lemma loop_keyed ge ms : forall prop seen k, key_loop ge ms prop seen = Ok (Some k) -> forall j m, nth_error ms j = Some m -> (j + 1 < length ms)%nat -> keyed m.
Proof.
  induction ms as [|m0 ms IH]; intros prop seen k H j m E J; [cbn in J; lia|]. cbn [key_loop] in H.
  pose proof (dereferenced_bundle (vm_field m0)) as B. destruct (dereferenced (vm_field m0)) as [| | | | |c00 fs als00 vc00| | | | | |]; try discriminate H.
  destruct (bundle_key fs) as [[c i]|] eqn:Bk.
  - apply bundle_key_iff in Bk as (rest & -> & V). apply bind_Ok in H as (v & Ev & H). destruct (mem_str v seen); [discriminate|].
    destruct j as [|j].
    + injection E as <-. exists c, i, rest. auto.
    + cbn [nth_error length] in E, J. destruct prop as [[[s0 c0] i0]|]; [|eapply IH; eauto; lia].
      apply bind_Ok in H as (b & Eb & H). destruct b; [|discriminate]. eapply IH; eauto; lia.
  - destruct ms; [cbn in J; lia|discriminate H].
Qed.

(** ** Execution *)
Definition not_last (ms : list vmember) (j : nat) (c : common) (i : int_state) : Prop := (j + 1 < length ms)%nat \/ valid_key c i = true.
Lemma arranged_case ms cs df : arranged ms cs df -> forall label k, In (label, k) cs ->
  exists j m c i rest, nth_error ms j = Some m /\ bundle_of (vm_field m) = Some (FInt c i :: rest) /\ not_last ms j c i /\ key_text i = Ok label /\ k = vcase_of m c.
Proof.
  induction 1 as [|m ms c i rest v cs d B N V A IH|]; intros label k I; try destruct I.
  - apply pair_equal_spec in H as [<- <-]. exists O, m, c, i, rest. repeat (split; [assumption || reflexivity|]). split; [|split; [exact V|reflexivity]].
    destruct N as [N|N]; [left|right; exact N]. destruct ms; [congruence|cbn; lia].
  - destruct (IH _ _ H) as (j & m' & c' & i' & rest' & E & B' & N' & V' & K). exists (S j), m', c', i', rest'. repeat (split; [assumption|]). split; [|auto].
    destruct N' as [N'|N']; [left|right; exact N']. cbn [length]. lia.
Qed.
Lemma arranged_all ms cs df : arranged ms cs df -> forall j m, nth_error ms j = Some m ->
  exists c i rest, bundle_of (vm_field m) = Some (FInt c i :: rest) /\
    (not_last ms j c i -> exists label, In (label, vcase_of m c) cs /\ key_text i = Ok label) /\
    (~ not_last ms j c i -> df = Some (vcase_of m c)).
Proof.
  induction 1 as [|m ms c i rest v cs d B N V A IH|m c i rest B V]; intros [|j] m' E; try discriminate E.
  - injection E as <-. exists c, i, rest. split; [exact B|]. split; [intros _; exists v; split; [now left|exact V]|].
    intro C. exfalso. apply C. destruct N as [N|N]; [left|right; exact N]. destruct ms; [congruence|cbn; lia].
  - destruct (IH _ _ E) as (c' & i' & rest' & B' & K1 & K2). exists c', i', rest'. split; [exact B'|].
    assert (not_last (m :: ms) (S j) c' i' <-> not_last ms j c' i') as Q by (unfold not_last; cbn [length]; split; (intros [|]; [left; lia|now right])).
    rewrite Q. split; [|exact K2]. intro X. destruct (K1 X) as (label & I & Kt). exists label. split; [now right|exact Kt].
  - injection E as <-. exists c, i, rest. split; [exact B|]. split; [|reflexivity]. intros [X|X]; [cbn in X; lia|congruence].
  - destruct j; discriminate E.
Qed.
Lemma arranged_default ms cs df k : arranged ms cs df -> df = Some k ->
  exists j m c i rest, nth_error ms j = Some m /\ (j + 1)%nat = length ms /\ bundle_of (vm_field m) = Some (FInt c i :: rest) /\ valid_key c i = false /\ k = vcase_of m c.
Proof.
  intros A E. induction A as [|m ms c i rest v cs d B N V A IH|m c i rest B V].
  - discriminate.
  - destruct (IH E) as (j & m' & c' & i' & rest' & E1 & E2 & K). exists (S j), m', c', i', rest'. split; [exact E1|]. split; [cbn [length]; lia|exact K].
  - exists O, m, c, i, rest. injection E as <-. repeat (split; [assumption || reflexivity|]). reflexivity.
Qed.
Section Runs.
Context {S : Type} (ms : list vmember) (cs : list (txt * vcase)) (df : option vcase) (rd : vreader S).
Let fs := map vm_field ms.
Let names := map (fun f => genAccessName (f_name f)) fs.
Hypothesis (Ar : arranged ms cs df) (Nd : NoDup names) (St : stored_keys fs) (Ne : ms <> [])
  (Kd : forall j m, nth_error ms j = Some m -> (j + 1 < length ms)%nat -> keyed m).
Lemma nth_fs j m : nth_error ms j = Some m -> nth_error fs j = Some (vm_field m).
Proof. intro E. unfold fs. now rewrite nth_error_map, E. Qed.
Lemma fs_nth j f : nth_error fs j = Some f -> exists m, nth_error ms j = Some m /\ f = vm_field m.
Proof. unfold fs. rewrite nth_error_map. destruct (nth_error ms j) as [m|]; [|discriminate]. intro E. injection E as <-. eauto. Qed.
Lemma fixed_at f n : In f fs -> fixed_key f n <-> exists c i rest, bundle_of f = Some (FInt c i :: rest) /\ valid_key c i = true /\ n = key_number i.
Proof. intro I. apply fixed_iff. intros c i rest B. destruct (St f c i rest I B) as [H _]. unfold is64, int_min, int_max. lia. Qed.
Lemma label_at m c i rest label v : In (vm_field m) fs -> bundle_of (vm_field m) = Some (FInt c i :: rest) -> key_text i = Ok label ->
  constant_with_comment label v <-> v = key_number i.
Proof. intros I B K. destruct (St _ _ _ _ I B) as [H Hl]. apply key_text_spec; [unfold is64, int_min, int_max; lia|exact Hl|exact K]. Qed.
Lemma index_at j m c : nth_error ms j = Some m -> index_of (vc_name (vcase_of m c)) names = Some j.
Proof. intro E. apply index_nth; [exact Nd|]. unfold names. rewrite nth_error_map, (nth_fs _ _ E). reflexivity. Qed.
Lemma valid_at j m c i rest : nth_error ms j = Some m -> bundle_of (vm_field m) = Some (FInt c i :: rest) -> not_last ms j c i -> valid_key c i = true.
Proof.
  intros E B [N|N]; [|exact N]. destruct (Kd j m E N) as (c' & i' & rest' & B' & V). rewrite B in B'. injection B' as -> -> ->. exact V.
Qed.
Lemma no_case v : (forall label c, In (label, c) cs -> ~ constant_with_comment label v) <-> (forall g, In g fs -> ~ fixed_key g v).
Proof.
  split.
  - intros H g I F. destruct (In_nth_error _ _ I) as (j & E). destruct (fs_nth _ _ E) as (m & Em & ->). apply (fixed_at _ _ I) in F as (c & i & rest & B & V & ->).
    destruct (arranged_all _ _ _ Ar _ _ Em) as (c' & i' & rest' & B' & K & _). rewrite B in B'. injection B' as <- <- <-.
    destruct (K (or_intror V)) as (label & Il & Kt). apply (H _ _ Il). eapply label_at; eauto.
  - intros H label k I C. destruct (arranged_case _ _ _ Ar _ _ I) as (j & m & c & i & rest & E & B & N & Kt & ->).
    assert (In (vm_field m) fs) as Im by (apply (nth_error_In _ j), nth_fs, E). apply (H _ Im). apply (fixed_at _ _ Im). exists c, i, rest. split; [exact B|].
    split; [eapply valid_at; eauto|]. now apply (label_at _ _ _ _ _ _ Im B Kt).
Qed.
Lemma runs_reads p s len r : vf_cases p = cs -> vf_default p = df -> runs_variant names p rd s len r <-> reads_variant fs rd s len r.
Proof.
  intros Ec Ed. split.
  - intros [e s' len' H | v s' len' label k j H I C X | v s' len' k j H N D X | v s' len' H N D].
    + econstructor; eauto.
    + rewrite Ec in I. destruct (arranged_case _ _ _ Ar _ _ I) as (j' & m & c & i & rest & E & B & Nl & Kt & ->).
      assert (In (vm_field m) fs) as Im by (apply (nth_error_In _ j'), nth_fs, E). rewrite (index_at _ _ _ E) in X. injection X as ->.
      eapply reads_keyed; [exact H|apply nth_fs, E|]. apply (fixed_at _ _ Im). exists c, i, rest. split; [exact B|]. split; [eapply valid_at; eauto|].
      now apply (label_at _ _ _ _ _ _ Im B Kt).
    + rewrite Ec in N. rewrite Ed in D. destruct (arranged_default _ _ _ _ Ar D) as (j' & m & c & i & rest & E & El & B & V & ->).
      assert (In (vm_field m) fs) as Im by (apply (nth_error_In _ j'), nth_fs, E). rewrite (index_at _ _ _ E) in X. injection X as ->.
      eapply reads_any; [exact H|now apply no_case|apply nth_fs, E|unfold fs; now rewrite map_length|].
      intros n F. apply (fixed_at _ _ Im) in F as (c' & i' & rest' & B' & V' & _). rewrite B in B'. injection B' as <- <- <-. congruence.
    + rewrite Ec in N. rewrite Ed in D. destruct (nth_error ms (length ms - 1)) as [m|] eqn:E.
      2: { apply nth_error_None in E. destruct ms; [now elim Ne|cbn [length] in E; lia]. }
      destruct (arranged_all _ _ _ Ar _ _ E) as (c & i & rest & B & _ & K). assert (valid_key c i = true) as V.
      { destruct (valid_key c i) eqn:V; [reflexivity|]. rewrite K in D; [discriminate|]. intros [Q|Q]; [|congruence]. destruct ms; cbn [length] in Q; lia. }
      eapply reads_unknown with (f := vm_field m) (n := key_number i); [exact H|now apply no_case|unfold fs; rewrite map_length; apply nth_fs, E|].
      apply fixed_at; [apply (nth_error_In _ (length ms - 1)%nat), nth_fs, E|]. eauto 10.
  - intros [e s' len' H | v s' len' j f H E F | v s' len' j f H N E El F | v s' len' f n H N E F].
    + econstructor; eauto.
    + destruct (fs_nth _ _ E) as (m & Em & ->). apply (fixed_at _ _ (nth_error_In _ _ E)) in F as (c & i & rest & B & V & ->).
      destruct (arranged_all _ _ _ Ar _ _ Em) as (c' & i' & rest' & B' & K & _). rewrite B in B'. injection B' as <- <- <-.
      destruct (K (or_intror V)) as (label & Il & Kt). eapply run_case; [exact H|rewrite Ec; exact Il| |apply index_at, Em].
      eapply label_at; eauto using nth_error_In.
    + destruct (fs_nth _ _ E) as (m & Em & ->). destruct (arranged_all _ _ _ Ar _ _ Em) as (c & i & rest & B & _ & K).
      eapply run_default; [exact H|rewrite Ec; now apply no_case|rewrite Ed; apply K|apply index_at, Em].
      intros [Q|Q]; [unfold fs in El; rewrite map_length in El; lia|]. apply (F (key_number i)). apply (fixed_at _ _ (nth_error_In _ _ E)). eauto 10.
    + destruct (fs_nth _ _ E) as (m & Em & ->). apply (fixed_at _ _ (nth_error_In _ _ E)) in F as (c & i & rest & B & V & ->).
      eapply run_break; [exact H|rewrite Ec; now apply no_case|]. rewrite Ed. assert (forall k, df = Some k -> False) as X; [|clear -X; destruct df; [now elim (X _ eq_refl)|reflexivity]].
      intros k Q. destruct (arranged_default _ _ _ _ Ar Q) as (j' & m' & c' & i' & rest' & E' & El & B' & V' & _).
      unfold fs in Em. rewrite map_length in Em. replace (length ms - 1)%nat with j' in Em by lia. rewrite E' in Em. injection Em as <-.
      rewrite B in B'. injection B' as <- <- <-. congruence.
Qed.
End Runs.

(** ** The function *)
Lemma func_tokens t cases (p : vfunc) : vf_type p = t -> tokens cases = tokens (join [newline] (map print_case (vf_cases p) ++ [print_default (vf_default p)])) ->
  exists out, genProcessTemplate variant_read_templ ([(L "KEY_FIELD_TYPE", t); (L "CASES", cases)] ++ (if vf_versions p then [(L "VERSION_DEP", version_check)] else [])) false = Ok out /\
    tokens out = tokens (print_vfunc p).
Proof.
  intros <- Tc. fill 30%nat. exists out. split; [reflexivity|]. rewrite Tt. clear E Tt out. unfold print_vfunc. revert Tc.
  generalize (join [newline] (map print_case (vf_cases p) ++ [print_default (vf_default p)])). intros body Tc. generalize (vf_type p). intro t.
  match goal with |- _ = tokens (_ ++ _ ++ ?x ++ _) => pose (w := x); change x with w end.
  transitivity (tokens (substituted (fun h => lookup h [(L "KEY_FIELD_TYPE", t); (L "CASES", cases); (L "VERSION_DEP", w)])
    (match cut_template 30 variant_read_templ with Some l => l | None => [] end))); [unfold w; destruct (vf_versions p); reflexivity|]. clearbody w.
  let pp := eval vm_compute in (match cut_template 30 variant_read_templ with Some l => l | None => [] end) in
    match goal with |- tokens (substituted ?h ?x) = _ => change x with pp end.
  swapped [(L "KEY_FIELD_TYPE", t); (L "CASES", body); (L "VERSION_DEP", w)]. clear. cbn [substituted]. look.
  same_holes [(T "Y", t); (T "B", body); (T "W", w)].
Qed.

(** ** The key *)
(** what the members with a key have in common: the type, the options, the order of bytes *)
Definition same_key (ge : gen_env) (scope : option str) (c : common) (i : int_state) (cpp opts : str) (e : endian) : Prop :=
  genCppIntTypeFor (i_type i) (i_length i) = cpp /\ key_opts ge scope c i = Ok opts /\ i_endian i = e.
Lemma same_endian_iff a b : same_endian a b = true <-> a = b.
Proof. destruct a, b; split; intro H; try reflexivity; discriminate H. Qed.
Lemma equivalent_iff ge s1 c1 i1 s2 c2 i2 : keys_equivalent ge s1 c1 i1 s2 c2 i2 = Ok true <->
  exists cpp o e, same_key ge s1 c1 i1 cpp o e /\ same_key ge s2 c2 i2 cpp o e.
Proof.
  unfold keys_equivalent, same_key. split.
  - destruct (str_eqb _ _) eqn:E; cbn [negb]; [|discriminate]. apply str_eqb_eq in E. intro H.
    apply bind_Ok in H as (o1 & E1 & H). apply bind_Ok in H as (o2 & E2 & H). destruct (str_eqb o1 o2) eqn:Eo; cbn [negb] in H; [|discriminate].
    apply str_eqb_eq in Eo. subst o2. apply Ok_inj, same_endian_iff in H. do 3 eexists. repeat split; eauto.
  - intros (cpp & o & e & (E1 & O1 & D1) & (E2 & O2 & D2)). rewrite E1, E2, (proj2 (str_eqb_eq cpp cpp) eq_refl), O1, O2. cbn [negb bind].
    rewrite (proj2 (str_eqb_eq o o) eq_refl). cbn [negb]. f_equal. apply same_endian_iff. congruence.
Qed.
Lemma loop_same ge ms : forall prop seen k, key_loop ge ms prop seen = Ok (Some k) ->
  (forall k0, prop = Some k0 -> k = k0) /\
  forall cpp o e, (let '(s, c, i) := k in same_key ge s c i cpp o e) ->
  forall m c i rest, In m ms -> bundle_of (vm_field m) = Some (FInt c i :: rest) -> valid_key c i = true -> same_key ge (vm_scope m) c i cpp o e.
Proof.
  induction ms as [|m0 ms IH]; intros prop seen k H; cbn [key_loop] in H.
  - apply Ok_inj in H. subst prop. split; [congruence|]. intros ? ? ? _ ? ? ? ? [].
  - pose proof (dereferenced_bundle (vm_field m0)) as B. destruct (dereferenced (vm_field m0)) as [| | | | |c00 fs als00 vc00| | | | | |]; try discriminate H.
    destruct (bundle_key fs) as [[c i]|] eqn:Bk.
    + apply bundle_key_iff in Bk as (rest & -> & V). apply bind_Ok in H as (v & Ev & H). destruct (mem_str v seen); [discriminate|].
      destruct prop as [[[s0 c0] i0]|].
      * apply bind_Ok in H as (b & Eb & H). destruct b; [|discriminate]. destruct (IH _ _ _ H) as [K1 K2]. pose proof (K1 _ eq_refl) as ->. split; [exact K1|].
        intros cpp o e Sk m c' i' rest' [<- |I] B' V'; [|eapply K2; eauto]. rewrite B in B'. injection B' as <- <- <-.
        apply equivalent_iff in Eb as (cpp' & o' & e' & (A1 & A2 & A3) & (D1 & D2 & D3)). destruct Sk as (S1 & S2 & S3).
        assert (o = o') as <- by congruence. unfold same_key. repeat split; congruence.
      * destruct (IH _ _ _ H) as [K1 K2]. pose proof (K1 _ eq_refl) as ->. split; [discriminate|].
        intros cpp o e Sk m c' i' rest' [<- |I] B' V'; [|eapply K2; eauto]. rewrite B in B'. injection B' as <- <- <-. exact Sk.
    + destruct ms; [|discriminate H]. apply Ok_inj in H. subst prop. split; [congruence|]. intros cpp o e _ m c i rest [<- |[]] B' V.
      rewrite B in B'. injection B' as ->. cbn [bundle_key] in Bk. rewrite V in Bk. discriminate.
Qed.
Lemma loop_bundles ge ms : forall prop seen k, key_loop ge ms prop seen = Ok (Some k) -> Forall (fun m => bundle_of (vm_field m) <> None) ms.
Proof.
  induction ms as [|m0 ms IH]; intros prop seen k H; cbn [key_loop] in H; [constructor|].
  pose proof (dereferenced_bundle (vm_field m0)) as B. destruct (dereferenced (vm_field m0)) as [| | | | |c00 fs als00 vc00| | | | | |]; try discriminate H.
  constructor; [congruence|]. destruct (bundle_key fs) as [[c i]|].
  - apply bind_Ok in H as (v & Ev & H). destruct (mem_str v seen); [discriminate|]. destruct prop as [[[s0 c0] i0]|]; [|eauto].
    apply bind_Ok in H as (b & Eb & H). destruct b; [|discriminate]. eauto.
  - destruct ms; [constructor|discriminate].
Qed.
(** members with keys have different labels *)
Lemma loop_distinct ge ms : forall prop seen k, key_loop ge ms prop seen = Ok (Some k) ->
  forall j m c i rest t, nth_error ms j = Some m -> bundle_of (vm_field m) = Some (FInt c i :: rest) -> valid_key c i = true -> key_text i = Ok t ->
  ~ In t seen /\ forall j' m' c' i' rest', (j < j')%nat -> nth_error ms j' = Some m' -> bundle_of (vm_field m') = Some (FInt c' i' :: rest') -> valid_key c' i' = true -> key_text i' <> Ok t.
Proof.
  induction ms as [|m0 ms IH]; intros prop seen k H j m c i rest t E B V Kt; [destruct j; discriminate|]. cbn [key_loop] in H.
  pose proof (dereferenced_bundle (vm_field m0)) as B0. destruct (dereferenced (vm_field m0)) as [| | | | |c00 fs als00 vc00| | | | | |]; try discriminate H.
  destruct (bundle_key fs) as [[c0 i0]|] eqn:Bk.
  - apply bundle_key_iff in Bk as (rest0 & -> & V0). apply bind_Ok in H as (v & Ev & H). destruct (mem_str v seen) eqn:Ms; [discriminate|].
    assert (~ In v seen) as Nv by (intro I; apply mem_str_In in I; congruence).
    assert (exists prop' k', key_loop ge ms prop' (v :: seen) = Ok (Some k')) as (prop' & k' & H').
    { destruct prop as [[[s1 c1] i1]|]; [|eauto]. apply bind_Ok in H as (b & Eb & H). destruct b; [|discriminate]. eauto. }
    destruct j as [|j]; cbn [nth_error] in E.
    + injection E as <-. rewrite B0 in B. injection B as <- <- <-. rewrite Ev in Kt. apply Ok_inj in Kt. subst t. split; [exact Nv|].
      intros [|j'] m' c' i' rest' J E' B' V' K'; [lia|]. cbn [nth_error] in E'. destruct (IH _ _ _ H' _ _ _ _ _ _ E' B' V' K') as [X _]. apply X. now left.
    + destruct (IH _ _ _ H' _ _ _ _ _ _ E B V Kt) as [X Y]. split; [intro I; apply X; now right|].
      intros [|j'] m' c' i' rest' J E' B' V'; [lia|]. cbn [nth_error] in E'. apply (Y j' m' c' i' rest'); auto; lia.
  - destruct ms; [|discriminate]. destruct j as [|[|]]; try discriminate E. injection E as <-. rewrite B0 in B. injection B as ->. cbn [bundle_key] in Bk. rewrite V in Bk. discriminate.
Qed.
Lemma key_type_tokens ge ns schema s c i : forall o, key_opts ge s c i = Ok o -> exists t, key_type ge ns schema (s, c, i) = Ok t /\
  tokens t = tokens (print_key ns (field_base_params schema (i_endian i)) (genCppIntTypeFor (i_type i) (i_length i)) o).
Proof.
  intros o Eo. unfold key_type. rewrite Eo. cbn [bind]. generalize (field_base_params schema (i_endian i)) (genCppIntTypeFor (i_type i) (i_length i)). intros p cpp.
  destruct o as [|x o]; cbn [is_nil app]; unfold print_key.
  - fill 30%nat. exists out. split; [reflexivity|]. rewrite Tt. clear. cbn [substituted]. look.
    same_holes [(T "N", ns); (T "P", p); (T "C", cpp)].
  - fill 30%nat. exists out. split; [reflexivity|]. rewrite Tt. clear. generalize (x :: o). intro q. cbn [substituted]. look.
    same_holes [(T "N", ns); (T "P", p); (T "C", cpp); (T "Q", q)].
Qed.
