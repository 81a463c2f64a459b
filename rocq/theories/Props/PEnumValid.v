(** C60: the values which generated enum fields accept. *)
From Coq Require Import Lia Sorted Permutation ZifyBool ZifyNat.
From Verif.Model Require Import Base Common Xml Units Field FieldCommon IntField EnumField GenUtil GenComms CommsInt CommsEnum.
From Verif.Spec Require Import Texts Ints Versions IntSpec EnumSpec GenSpec NameSpec CppSpec CondCode BodySpec TokenSpec EnumCode.
From Verif.Proofs Require Import BaseFacts CommonFacts IntFacts RangeFacts IntInv EnumInv GenFacts TemplateFacts CommsIntFacts CommsOptFacts TokenFacts FactoryFacts EnumTextFacts EnumGenFacts EnumRangeFacts EnumValidFacts.
From Verif.Props Require Import PTexts PInt PTemplate PCondCode PComms PFlags PEnumGen.
Local Open Scope string_scope. Local Open Scope Z_scope. Local Open Scope list_scope.

(** ** A few ranges, without checks of versions *)
Lemma exists_iff g a b r : genDoesElementExist g a b r = true <-> a <= genSchemaVersion g /\ (r = true -> gv_min_remote g < b).
Proof. unfold genDoesElementExist. destruct (genSchemaVersion g <? a) eqn:E1; [split; [discriminate|lia]|]. destruct r; cbn [andb]; [destruct (b <=? gv_min_remote g) eqn:E2; lia|]. split; [intros _; split; [lia|discriminate]|auto]. Qed.
Lemma ranges_valid (o : list txt) v : o <> [] -> Forall restricts o -> base_valid o v <-> exists x, In x o /\ accepts x v.
Proof.
  intros N F. unfold base_valid. split; [|auto]. intros [H|H]; [exact H|]. exfalso. destruct o as [|x o]; [congruence|]. inversion F; subst. apply (H x); [now left|assumption].
Qed.
(** Without checks of the version, a field of few ranges accepts exactly the numbers of the values which
    exist in the generated versions. *)
Theorem C60_options_partial : forall ge x c s o, enum_declared s -> clear_numbers s -> en_check ge s = false ->
  enum_def_opts ge x c s = Ok o -> enum_valid_body ge s = Ok [] ->
  forall v, base_valid o v <->
    exists n d, declared_number s n d v /\ v_since d <= genSchemaVersion (ge_ver ge) /\ gv_min_remote (ge_ver ge) < v_depr d.
Proof.
  intros ge x c s o D Cl Ck Ho Hb v. apply enum_declared_gen in D as G. destruct (enum_opts_valid ge x c s o v Ho) as (r & Hr & ->).
  unfold enum_valid_body in Hb. apply bind_Ok in Hb as (rs & Hrs & Hb). unfold en_ranges_opts in Hr. rewrite Hrs in Hr. cbn [bind] in Hr. rewrite Ck in Hr, Hb. cbn [negb] in Hr, Hb.
  assert (Len : Nat.ltb max_ranges_in_opts (length rs) = false).
  { destruct (Nat.leb (length rs) max_ranges_in_opts) eqn:E; [apply Nat.leb_le in E; apply Nat.ltb_ge; exact E|]. exfalso. clear Hr.
    eapply template_of in Hb; [|vm_compute; reflexivity]. cbn [substituted] in Hb. rewrite tokens_l in Hb by reflexivity. discriminate Hb. }
  rewrite Len in Hr. pose proof (enum_ranges_ok ge s rs G Hrs) as R. destruct (range_opts ge s rs rs r v G Cl R (incl_refl _) Hr) as [F K].
  rewrite ranges_valid; [|intros ->; apply mapM_Forall2 in Hr; inversion Hr; subst; now apply (rk_nonempty _ _ _ R)|exact F]. rewrite K.
  pose proof (rk_covers _ _ _ R (fun _ _ => True) v (fun _ _ _ => I)) as Q. rewrite Ck in Q. cbn [negb] in Q.
  split.
  - intros (r0 & Ir & Cr). destruct (proj1 Q) as (n & d & Id & E & _ & S); [eauto|]. apply exists_iff in E as [E1 E2]. exists n, d. split; [split; assumption|]. auto.
  - intros (n & d & [Id S] & E1 & E2). destruct (proj2 Q) as (r0 & Ir & _ & Cr); [|eauto]. exists n, d. split; [exact Id|]. split; [apply exists_iff; auto|auto].
Qed.
Print Assumptions C60_options_partial.

(** ** Checks of the version *)
(** With checks of the version, a field accepts in version [w] exactly the numbers of the values which
    exist in that version (and in the generated code). *)
Theorem C60_in_version_partial : forall ge x c s o body ty, enum_declared s -> clear_numbers s -> en_check ge s = true ->
  (forall n d z, declared_number s n d z -> cpp_holds ty z) ->
  enum_def_opts ge x c s = Ok o -> enum_valid_body ge s = Ok body ->
  exists gs, tokens body = tokens (groups_code gs) /\
    forall v w, 0 <= w < never -> groups_valid ty o gs v w <->
      exists n d, declared_number s n d v /\ v_since d <= w < v_depr d /\ v_since d <= genSchemaVersion (ge_ver ge).
Proof.
  intros ge x c s o body ty D Cl Ck Hty Ho Hb. apply enum_declared_gen in D as G.
  unfold enum_valid_body in Hb. apply bind_Ok in Hb as (rs & Hrs & Hb). rewrite Ck in Hb. cbn [negb] in Hb. apply bind_Ok in Hb as (ts & Hts & Hb).
  pose proof (enum_ranges_ok ge s rs G Hrs) as R. pose proof (ranges_in_order ge s rs G R) as O. fold (big_of s) in Hts.
  destruct (version_groups_ok rs) as [Gok Gcat]. pose proof (rk_proper _ _ _ R) as Pr. rewrite Forall_forall in Pr.
  assert (In_rs : forall g r, In g (version_groups rs) -> In r g -> In r rs /\ uncond r = false).
  { intros g r Ig Ir. assert (I : In r (concat (version_groups rs))) by (apply in_concat; eauto). rewrite Gcat in I. apply filter_In in I as [I U]. split; [exact I|lia]. }
  assert (Gr : Forall (fun g => group_ok g /\ Forall r64 g) (version_groups rs)).
  { rewrite Forall_forall in Gok |- *. intros g Ig. split; [auto|]. apply Forall_forall. intros r Ir. apply Pr. eapply In_rs; eauto. }
  destruct (groups_text_code (big_of s) _ _ Gr Hts) as (codes & Ec & K). exists codes. split.
  { eapply body_code; [|exact Hb]. rewrite list_tokens. exact Ec. }
  intros v w Hw. destruct (enum_opts_valid ge x c s o v Ho) as (ro & Hr & Eb).
  (* the numbers of a range are numbers of the type *)
  assert (Ht : forall r, In r rs -> cpp_holds ty (uns (big_of s) (r_min r)) /\ cpp_holds ty (uns (big_of s) (r_max r))).
  { intros r I. destruct (rk_ends _ _ _ R r I) as (n & a & n' & b & Ia & Ib & -> & -> & _).
    split; [apply (Hty n a)|apply (Hty n' b)]; (split; [assumption|]); now apply stands_uns. }
  assert (Groups : (exists g tests, In g codes /\ In tests (snd g) /\ Forall (test_true ty v w) (fst g) /\ Forall (test_true ty v w) tests) <->
    exists r, In r rs /\ uncond r = false /\ r_since r <= w < r_depr r /\ covers (big_of s) r v).
  { rewrite Forall_forall in O, Gok. split.
    - intros (g & tests & Ig & It & F1 & F2). apply (F2_right _ _ _ _ K) in Ig as (rg & Irg & r0 & Ir0 & Ef & Fg).
      apply (F2_right _ _ _ _ Fg) in It as (r & Ir & lo & hi & C1 & C2 & ->). destruct (In_rs rg r Irg Ir) as [Ir1 U]. destruct (In_rs rg r0 Irg Ir0) as [Ir2 U2].
      exists r. split; [exact Ir1|]. split; [exact U|]. rewrite Ef in F1. apply ver_tests_spec in F1; [|auto|exact U2|exact Hw].
      destruct (proj2 (Gok rg Irg) r r0 Ir Ir0) as [-> ->]. split; [exact F1|]. destruct (Ht r Ir1) as [T1 T2]. exact (proj1 (val_tests_spec ty v w _ r lo hi C1 C2 T1 T2) F2).
    - intros (r & Ir & U & Hv & Cv). assert (I : In r (concat (version_groups rs))) by (rewrite Gcat; apply filter_In; split; [exact Ir|now rewrite U]).
      apply in_concat in I as (rg & Irg & Irr). destruct (F2_left _ _ _ _ K Irg) as (g & Ig & r0 & Ir0 & Ef & Fg).
      destruct (F2_left _ _ _ _ Fg Irr) as (tests & It & lo & hi & C1 & C2 & ->). exists g, (val_tests r lo hi). split; [exact Ig|]. split; [exact It|].
      destruct (In_rs rg r0 Irg Ir0) as [Ir2 U2]. split.
      + rewrite Ef. apply ver_tests_spec; [auto|exact U2|exact Hw|]. destruct (proj2 (Gok rg Irg) r0 r Ir0 Irr) as [-> ->]. exact Hv.
      + destruct (Ht r Ir) as [T1 T2]. exact (proj2 (val_tests_spec ty v w _ r lo hi C1 C2 T1 T2) Cv). }
  assert (Base : base_valid ro v <-> exists r, In r rs /\ uncond r = true /\ covers (big_of s) r v).
  { unfold en_ranges_opts in Hr. rewrite Hrs in Hr. cbn [bind] in Hr. rewrite Ck in Hr. cbn [negb] in Hr.
    rewrite (take_uncond rs O (rk_vers _ _ _ R Ck)) in Hr. destruct (filter uncond rs) as [|u us] eqn:Ef.
    - apply Ok_inj in Hr. subst ro. split.
      + intros [(o' & [<-|[<-|[]]] & A)|N].
        * exfalso. apply accepts_restricts in A. revert A. change (neutral (copt (L "VersionStorage"))). neutral_tac.
        * exfalso. inversion A; discriminate.
        * exfalso. apply (N (copt (L "InvalidByDefault"))); [right; now left|]. now left.
      + intros (r & Ir & U & _). exfalso. assert (I : In r []) by (rewrite <- Ef; apply filter_In; auto). exact I.
    - apply bind_Ok in Hr as (o' & Ho' & Hr). apply Ok_inj in Hr. subst ro. rewrite <- Ef in Ho'.
      assert (N : o' <> []) by (rewrite Ef in Ho'; apply mapM_Forall2 in Ho'; inversion Ho'; discriminate).
      destruct (range_opts ge s rs (filter uncond rs) o' v G Cl R) as [F K']; [intros r I; now apply filter_In in I|exact Ho'|].
      rewrite base_valid_app by (destruct (Nat.eqb _ _); repeat constructor; neutral_tac). rewrite ranges_valid by assumption. rewrite K'.
      split; intros (r & A & B); exists r; [apply filter_In in A as [A1 A2]; auto|]. destruct B as [B1 B2]. split; [now apply filter_In|exact B2]. }
  unfold groups_valid. rewrite Groups, Eb, Base.
  pose proof (rk_covers _ _ _ R (fun a b => a <= w < b) v) as Q. rewrite Ck in Q. cbn [negb] in Q. specialize (Q ltac:(discriminate)).
  rewrite Forall_forall in O. transitivity (exists r, In r rs /\ r_since r <= w < r_depr r /\ covers (big_of s) r v).
  - split.
    + intros [(r & A & B & C)|(r & A & B & C & E)]; exists r; (split; [exact A|]); (split; [|assumption]); [|exact C]. unfold uncond in B. change not_deprecated with 4294967295 in B. unfold never in Hw. lia.
    + intros (r & A & B & C). destruct (uncond r) eqn:U; [left|right]; exists r; auto.
  - rewrite Q. split.
    + intros (n & d & Id & E & Hv & S). apply exists_iff in E as [E1 _]. exists n, d. split; [split; assumption|]. auto.
    + intros (n & d & [Id S] & Hv & E1). exists n, d. split; [exact Id|]. split; [apply exists_iff; split; [exact E1|discriminate]|]. auto.
Qed.
Print Assumptions C60_in_version_partial.

(** ** Many ranges: a sorted array *)
Lemma array_values_spec : forall l prev, StronglySorted (fun a b : Z * str => fst a <= fst b) l -> (forall p, prev = Some p -> Forall (fun a => p <= fst a) l) ->
  exists es, array_values prev l = map (fun e => T "ValueType::" ++ snd e) es /\ incl es l /\ StronglySorted Z.lt (map fst es) /\
    (forall p, prev = Some p -> Forall (fun z => p < z) (map fst es)) /\ (forall e, In e l -> prev = Some (fst e) \/ In (fst e) (map fst es)).
Proof.
  induction l as [|[v n] l IH]; intros prev S P.
  - exists []. cbn. split; [reflexivity|]. split; [intros ? []|]. split; [constructor|]. split; [constructor|intros ? []].
  - inversion S as [|? ? S1 S2]; subst. cbn [array_values]. destruct (match prev with Some p => p =? v | None => false end) eqn:E.
    + destruct prev as [p|]; [|discriminate]. assert (p = v) by lia. subst v. destruct (IH (Some p) S1) as (es & E1 & I1 & S' & P' & C); [intros q Eq; injection Eq as <-; exact S2|].
      exists es. split; [exact E1|]. split; [intros x I; right; auto|]. split; [exact S'|]. split; [exact P'|]. intros e [<-|I]; [now left|auto].
    + destruct (IH (Some v) S1) as (es & E1 & I1 & S' & P' & C); [intros q Eq; injection Eq as <-; exact S2|].
      exists ((v, n) :: es). cbn [map fst snd]. rewrite E1. split; [reflexivity|]. split; [intros x [<-|I]; [now left|right; auto]|]. specialize (P' v eq_refl).
      split; [constructor; assumption|]. split.
      * intros p ->. specialize (P p eq_refl). inversion P as [|? ? P1 P2]; subst. cbn [fst] in P1. constructor; [lia|]. eapply Forall_impl; [|exact P']. cbn. lia.
      * intros e [<-|I]; [right; now left|]. destruct (C e I) as [Q|Q]; [right; left; congruence|right; now right].
Qed.
Lemma join_tokens names a : tokens (genStrListToString (map (fun e : Z * str => T "ValueType::" ++ snd e) names) (L "," ++ [nl]) [] ++ newline :: a) =
  tokens (join (T ", ") (map (fun n => T "ValueType::" ++ n) (map snd names)) ++ T " " ++ a).
Proof.
  induction names as [|[z n] names IH]; [reflexivity|]. destruct names as [|[z' n'] names].
  - cbn [map genStrListToString join app snd]. rewrite !app_nil_r. change (T " " ++ a) with (" "%char :: a). rewrite !(tokens_r _ (_ :: a)) by reflexivity. reflexivity.
  - set (r := (z', n') :: names) in *. change (map (fun e : Z * str => T "ValueType::" ++ snd e) ((z, n) :: r)) with ((T "ValueType::" ++ n) :: map (fun e : Z * str => T "ValueType::" ++ snd e) r).
    change (map (fun m => T "ValueType::" ++ m) (map snd ((z, n) :: r))) with ((T "ValueType::" ++ n) :: map (fun m => T "ValueType::" ++ m) (map snd r)).
    rewrite join_cons2 by discriminate.
    assert (Ej : forall x l, l <> [] -> genStrListToString (x :: l) (L "," ++ [nl]) [] = x ++ (L "," ++ [nl]) ++ genStrListToString l (L "," ++ [nl]) []) by (intros x [|? ?]; [congruence|reflexivity]).
    rewrite Ej by discriminate. rewrite <- !app_assoc. rewrite 2!(tokens_l (T "ValueType::")) by reflexivity. f_equal.
    rewrite !(tokens_r n) by reflexivity. f_equal. rewrite !tokens_l by reflexivity. cbn [tokens]. exact (f_equal (fun t => [","]%char :: t) IH).
Qed.
Lemma array_text (es : list (Z * str)) body :
  genProcessTemplate array_templ [(L "VALUES", genStrListToString (map (fun e : Z * str => T "ValueType::" ++ snd e) es) (L "," ++ [nl]) [])] false = Ok body ->
  tokens body = tokens (array_code (map snd es)).
Proof.
  intros H. eapply template_of in H; [|vm_compute; reflexivity]. rewrite H. clear H. set (N := genStrListToString _ _ _).
  set (after := T "};" ++ [nl; nl] ++ T "auto iter =" ++ [nl] ++ T "    std::lower_bound(std::begin(Values), std::end(Values), Base::getValue());" ++ [nl; nl] ++
    T "if ((iter == std::end(Values)) || (*iter != Base::getValue())) {" ++ [nl] ++ T "    return false;" ++ [nl] ++ T "}" ++ [nl; nl] ++ T "return true;" ++ [nl]).
  transitivity (tokens ((T "if (!Base::valid()) {" ++ [nl] ++ T "    return false;" ++ [nl] ++ T "}" ++ [nl; nl] ++ T "static const ValueType Values[] = {" ++ [nl] ++ T "    ") ++ N ++ newline :: after)); [reflexivity|].
  rewrite tokens_l by reflexivity. unfold N. rewrite join_tokens. unfold array_code. rewrite (tokens_l (T "if (!Base::valid()) { return false; } static const ValueType Values[] = { ")) by reflexivity.
  apply f_equal2; [vm_compute; reflexivity|]. set (J := join _ _). clearbody J. unfold after. rewrite !(tokens_r J) by reflexivity. apply f_equal2; [reflexivity|]. vm_compute. reflexivity.
Qed.
(** A field of many ranges searches an array of enumerators.  If the enumerators of all values are
    generated, and unsigned 64-bit numbers are less than 2^63, it accepts exactly the numbers of
    the declared values, also those of removed ones. *)
Theorem C60_array_partial : forall ge x c s o body, enum_declared s -> en_check ge s = false ->
  enum_def_opts ge x c s = Ok o -> enum_valid_body ge s = Ok body -> body <> [] ->
  (forall n d z, declared_number s n d z -> v_since d <= genSchemaVersion (ge_ver ge) /\ (is_unsigned (en_type s) = true -> z < 2 ^ 63)) ->
  forall vs, (forall n z, In (n, z) vs <-> exists d, declared_number s n d z /\ v_since d <= genSchemaVersion (ge_ver ge)) ->
  exists names, tokens body = tokens (array_code names) /\
    forall v, array_valid o vs names v <-> exists n d, declared_number s n d v.
Proof.
  intros ge x c s o body D Ck Ho Hb Nb Hd vs Hvs. apply enum_declared_gen in D as G.
  unfold enum_valid_body in Hb. apply bind_Ok in Hb as (rs & Hrs & Hb). rewrite Ck in Hb. cbn [negb] in Hb.
  destruct (Nat.leb (length rs) max_ranges_in_opts) eqn:Len; [apply Ok_inj in Hb; congruence|].
  destruct (array_values_spec (rev_values s) None (rev_sorted s)) as (es & E1 & I1 & S1 & _ & C1); [discriminate|]. rewrite E1 in Hb.
  exists (map snd es). split; [exact (array_text es body Hb)|].
  assert (Uns : forall e, In e (rev_values s) -> exists d, declared_number s (snd e) d (fst e)).
  { intros [v n] I. apply rev_In in I as (d & Id & ->). cbn [fst snd]. exists d. split; [exact Id|]. apply stands_uns.
    destruct (Hd n d (uns (is_big (en_type s)) (v_value d))) as [_ K]; [split; [exact Id|now apply stands_uns]|]. unfold uns in *. destruct (is_big (en_type s)) eqn:B; [|reflexivity].
    destruct (value_In s n d G Id) as (_ & _ & [A _] & _). specialize (K ltac:(destruct (en_type s); try discriminate B; reflexivity)).
    unfold is64, int_min, int_max in A. unfold to_u64, two64 in *. destruct (Z.ltb_spec (v_value d) 0) as [N|N].
    - exfalso. replace (v_value d) with ((v_value d + 18446744073709551616) + (-1) * 18446744073709551616) in K by lia. rewrite Z.mod_add, Z.mod_small in K by lia. lia.
    - symmetry. apply Z.mod_small. lia. }
  assert (Bv : forall v, base_valid o v).
  { intros v. destruct (enum_opts_valid ge x c s o v Ho) as (r & Hr & ->). unfold en_ranges_opts in Hr. rewrite Hrs in Hr. cbn [bind] in Hr. rewrite Ck in Hr. cbn [negb] in Hr.
    assert (Nat.ltb max_ranges_in_opts (length rs) = true) as L1 by (apply Nat.ltb_lt; apply Nat.leb_gt in Len; exact Len). rewrite L1 in Hr. apply Ok_inj in Hr. subst r. right. intros o' []. }
  intros v. split.
  - intros (nums & F & _ & _ & I). destruct (F2_right _ _ _ _ F I) as (n & _ & J). apply Hvs in J as (d & J & _). eauto.
  - intros (n & d & Dn). exists (map fst es). split; [|split; [exact S1|split; [apply Bv|]]].
    + clear C1 S1 E1 Hb. induction es as [|[z m] es IH]; cbn [map fst snd]; [constructor|]. constructor.
      * destruct (Uns (z, m)) as [d' D']; [apply I1; now left|]. apply Hvs. exists d'. split; [exact D'|]. eapply Hd; eauto.
      * apply IH. intros e Ie. apply I1. now right.
    + pose proof Dn as [Id Sd]. apply stands_uns in Sd. assert (Ir : In (v_value d, n) (rev_values s)) by (apply rev_In; eauto).
      destruct (C1 _ Ir) as [Q|Q]; [discriminate|]. cbn [fst] in Q. destruct (Uns _ Ir) as (d' & Id' & Sd'). cbn [fst snd] in *. apply stands_uns in Sd'.
      destruct (value_In s n d G Id) as (A1 & _). destruct (value_In s n d' G Id') as (A2 & _). assert (d' = d) by congruence. subst d'. congruence.
Qed.
Print Assumptions C60_array_partial.

(** ** Length and default value *)
Lemma range_opt_form big r x : range_opt big r = Ok x -> exists s, x = copt (L "Valid" ++ s).
Proof.
  unfold range_opt. intros H. repeat match type of H with
  | context [if ?b then _ else _] => destruct b
  | bind _ _ = Ok _ => apply bind_Ok in H as (? & _ & H)
  end; apply Ok_inj in H; subst x; eexists; reflexivity.
Qed.
Lemma en_ranges_form ge s r y : en_ranges_opts ge s = Ok r -> In y r -> exists z, y = copt (L "Val" ++ z) \/ y = copt (L "Ver" ++ z) \/ y = copt (L "I" ++ z).
Proof.
  intros H I. unfold en_ranges_opts in H. apply bind_Ok in H as (rs & _ & H).
  assert (K : forall l o, mapM (range_opt (en_opt_big s)) l = Ok o -> In y o -> exists z, y = copt (L "Val" ++ z) \/ y = copt (L "Ver" ++ z) \/ y = copt (L "I" ++ z)).
  { intros l o M J. apply mapM_Forall2 in M. destruct (F2_right _ _ _ _ M J) as (q & _ & E). apply range_opt_form in E as [z ->]. eexists. left. reflexivity. }
  destruct (negb (en_check ge s)).
  - destruct (Nat.ltb _ _); [apply Ok_inj in H; subst r; destruct I|eauto].
  - destruct (take_while _ _) as [|u us].
    + apply Ok_inj in H. subst r. destruct I as [<-|[<-|[]]]; eexists; right; [left|right]; reflexivity.
    + apply bind_Ok in H as (o & M & H). apply Ok_inj in H. subst r. apply in_app_iff in I as [I|I]; [|eauto]. destruct (Nat.eqb _ _); [destruct I|]. destruct I as [<-|[]]. eexists. right. left. reflexivity.
Qed.
Lemma en_length_form c s y : In y (en_length_opts c s) -> exists z, y = copt (L "VarLength<" ++ z) \/ y = copt (L "FixedBitLength<" ++ z) \/ y = copt (L "FixedLength<" ++ z).
Proof.
  unfold en_length_opts. destruct (is_var (en_type s)); [intros [<-|[]]; eexists; left; reflexivity|]. destruct (negb _); [intros [<-|[]]; eexists; right; left; reflexivity|].
  destruct (negb _); [intros [<-|[]]; eexists; right; right; reflexivity|intros []].
Qed.
Lemma en_default_form s d y : en_default_opts s = Ok d -> In y d -> exists z, y = copt (L "DefaultNumValue<" ++ z) \/ y = copt (L "DefaultBigUnsignedNumValue<" ++ z).
Proof.
  unfold en_default_opts. intros H I. destruct (_ =? _); [apply Ok_inj in H; subst d; destruct I|]. destruct (_ && _).
  - apply Ok_inj in H. subst d. destruct I as [<-|[]]. eexists. right. reflexivity.
  - apply bind_Ok in H as (t & _ & H). apply Ok_inj in H. subst d. destruct I as [<-|[]]. eexists. left. reflexivity.
Qed.
Lemma enum_opts_In ge x c s o : enum_def_opts ge x c s = Ok o -> exists d r, en_default_opts s = Ok d /\ en_ranges_opts ge s = Ok r /\
  forall y, In y o <-> (y = copt (L "AvailableLengthLimit") /\ en_availableLengthLimit s = true) \/ In y (comms_def_options x c) \/ In y d \/ In y (en_length_opts c s) \/ In y r.
Proof.
  intros H. unfold enum_def_opts in H. apply bind_Ok in H as (d & Hd & H). apply bind_Ok in H as (r & Hr & H). apply Ok_inj in H. subst o.
  exists d, r. split; [exact Hd|]. split; [exact Hr|]. intros y. rewrite in_add_if, !in_app_iff. tauto.
Qed.
Lemma enum_length_unique ge x c s o y : enum_def_opts ge x c s = Ok o -> about_length y -> In y o <-> In y (en_length_opts c s).
Proof.
  intros H A. apply enum_opts_In in H as (d & r & Hd & Hr & K). rewrite K. split; [|auto 6]. apply about_length_form in A as (n & a & N & ->).
  intros [[E _]|[I|[I|[I|I]]]]; [| | |exact I|]; exfalso.
  - cbn [In] in N. repeat destruct N as [<-|N]; try contradiction; discriminate E.
  - eapply def_options_not; [exact I|]. cbn [In] in N |- *. tauto.
  - apply (en_default_form _ _ _ Hd) in I as (z & [E|E]); cbn [In] in N; repeat destruct N as [<-|N]; try contradiction; discriminate E.
  - apply (en_ranges_form _ _ _ _ Hr) in I as (z & [E|[E|E]]); cbn [In] in N; repeat destruct N as [<-|N]; try contradiction; discriminate E.
Qed.
(** A generated enum class is serialised with the lengths the parser reports *)
Theorem C60_length : forall ge x c s o, enum_declared s -> enum_def_opts ge x c s = Ok o ->
  (c_inBitfield c = false \/ variable_type (en_type s)) ->
  exists lo, (variable_type (en_type s) -> lo = 1) /\ (~ variable_type (en_type s) -> lo = en_length s) /\
  serialised_length (genCppIntTypeFor (en_type s) (en_length s)) o lo (en_length s).
Proof.
  intros ge x c s o D H B. apply enum_declared_gen in D as G. pose proof (einv_bits _ (eg_inv _ G)) as (B1 & B2 & B3). pose proof (max_len_pos (en_type s)) as ML.
  assert (ML' : max_type_length (en_type s) <= 10) by (destruct (en_type s); cbn; lia).
  assert (V : is_var (en_type s) = true <-> variable_type (en_type s)) by (unfold variable_type; destruct (en_type s); cbn; intuition discriminate).
  pose proof (fun y => enum_length_unique ge x c s o y H) as U.
  exists (if is_var (en_type s) then 1 else en_length s). rewrite <- V.
  split; [intros ->; reflexivity|]. split; [intros N; destruct (is_var (en_type s)); [congruence|reflexivity]|].
  assert (One : forall y lo hi, en_length_opts c s = [y] -> length_option y lo hi -> serialised_length (genCppIntTypeFor (en_type s) (en_length s)) o lo hi).
  { intros y lo hi E K. left. exists y. assert (A : about_length y) by (left; eauto). split; [apply U; [exact A|rewrite E; left; reflexivity]|]. split; [exact K|].
    intros y' Iy' A'. apply U in Iy'; [|exact A']. rewrite E in Iy'. destruct Iy' as [<-|[]]; reflexivity. }
  unfold en_length_opts in *. destruct (is_var (en_type s)) eqn:Ev.
  - eapply One; [reflexivity|]. right. right. exists (genNumToStringU 1 0), (genNumToStringU (en_length s) 0).
    split; [rewrite opt2_one; unfold an_option, copt; cbn [join]; rewrite <- ?app_assoc; reflexivity|]. split; apply numU_spec; unfold two64; lia.
  - destruct B as [B|B]; [|apply V in B; discriminate]. rewrite B in *. change (negb (0 =? 0)) with false in *. cbv iota in *.
    destruct (type_length (en_type s) =? en_length s) eqn:El; cbn [negb] in *.
    + right. split; [intros y Iy A; apply U in Iy; [destruct Iy|exact A]|]. split; [|reflexivity].
      assert (type_length (en_type s) = en_length s) as <- by lia. destruct (en_type s); try discriminate Ev; cbn; tauto.
    + eapply One; [reflexivity|]. left. exists (genNumToStringU (en_length s) 0).
      split; [unfold an_option, copt; cbn [join]; rewrite <- ?app_assoc; reflexivity|]. split; [apply numU_spec; unfold two64; lia|reflexivity].
Qed.
Print Assumptions C60_length.
(** and its default value is the number the parser reports *)
Theorem C60_default : forall ge x c s o, enum_declared s -> enum_def_opts ge x c s = Ok o ->
  exists v, default_value o v /\ stands_for (en_type s) (en_default s) v.
Proof.
  intros ge x c s o D H. apply enum_declared_gen in D as G. destruct (einv_default _ (eg_inv _ G)) as [R _].
  exists (uns (is_big (en_type s)) (en_default s)). split; [|now apply stands_uns].
  apply enum_opts_In in H as (d & r & Hd & Hr & K).
  assert (U : forall y w, default_option y w -> (In y o <-> In y d)).
  { intros y w A. rewrite K. split; [|auto 6]. apply default_form1 in A as (n & a & N & ->). intros [[E _]|[I|[I|[I|I]]]]; [| |exact I| |]; exfalso.
    - cbn [In] in N. repeat destruct N as [<-|N]; try contradiction; discriminate E.
    - eapply def_options_not; [exact I|]. cbn [In] in N |- *. tauto.
    - apply en_length_form in I as (z & [E|[E|E]]); cbn [In] in N; repeat destruct N as [<-|N]; try contradiction; discriminate E.
    - apply (en_ranges_form _ _ _ _ Hr) in I as (z & [E|[E|E]]); cbn [In] in N; repeat destruct N as [<-|N]; try contradiction; discriminate E. }
  unfold en_default_opts in Hd. destruct (en_default s =? 0) eqn:E0.
  - right. apply Ok_inj in Hd. subst d. split; [intros y w I A; apply (U y w A) in I; exact I|]. assert (en_default s = 0) as -> by lia. unfold uns. destruct (is_big (en_type s)); reflexivity.
  - assert (One : forall y, d = [y] -> default_option y (uns (is_big (en_type s)) (en_default s)) -> default_value o (uns (is_big (en_type s)) (en_default s))).
    { intros y E A. left. exists y. split; [apply (U y _ A); rewrite E; now left|]. split; [exact A|]. intros y' w I A'. apply (U y' w A') in I. rewrite E in I. now destruct I as [<-|[]]. }
    destruct ((en_default s <? 0) && is_big (en_type s)) eqn:E1.
    + apply Ok_inj in Hd. subst d. eapply One; [reflexivity|]. apply andb_true_iff in E1 as [_ ->]. unfold uns. eexists. split; [right; reflexivity|]. apply numU_spec, to_u64_range.
    + apply bind_Ok in Hd as (t & Ht & Hd). apply Ok_inj in Hd. subst d. eapply One; [reflexivity|]. eexists. split; [left; reflexivity|].
      unfold uns. destruct (is_big (en_type s)); [rewrite to_u64_small by (auto; lia)|]; now apply numS_spec.
Qed.
Print Assumptions C60_default.

(** ** Examples *)
Lemma clear_small s : (match en_type s with Uintvar => false | _ => true end) && (en_length s <? 8) = true -> clear_numbers s.
Proof. intros H. right. left. apply andb_true_iff in H as [H1 H2]. split; [|lia]. intros E. rewrite E in H1. discriminate H1. Qed.
Definition opt_texts (o : list string) : list txt := map (fun x => T x) o.
Example C60_ex : exists s, ex_enum5 [("type", "uint8")] [ex_val5 [("name", "A"); ("val", "0")]; ex_val5 [("name", "B"); ("val", "1"); ("deprecated", "2")]; ex_val5 [("name", "C"); ("val", "7"); ("sinceVersion", "3")]] = Ok s /\
  enum_declared s /\ clear_numbers s /\ en_check plain_ge s = false /\ enum_valid_body plain_ge s = Ok [] /\
  enum_def_opts plain_ge plain_fs (ex_common 0 false) s =
    Ok (opt_texts ["TExtraOpts..."; "comms::option::def::ValidNumValueRange<0, 1>"; "comms::option::def::ValidNumValue<7>"]).
Proof. by_eval E. split; [exact (ex_declared _ _ _ E)|]. split; [apply clear_small; vm_compute; reflexivity|]. vm_compute. auto. Qed.
Lemma numbers_dec s (p : Z -> bool) (P : Z -> Prop) : (forall z, p z = true -> P z) ->
  forallb (fun x => p (uns (is_big (en_type s)) (v_value (snd x)))) (en_values s) = true -> forall n d z, declared_number s n d z -> P z.
Proof. intros H F n d z [I S]. rewrite forallb_forall in F. apply F in I. apply stands_uns in S. subst z. auto. Qed.
Example C60_ex_version : exists s, ex_enum5 [("type", "uint8"); ("validCheckVersion", "true")] [ex_val5 [("name", "A"); ("val", "0")]; ex_val5 [("name", "B"); ("val", "1"); ("deprecated", "2")];
    ex_val5 [("name", "C"); ("val", "7"); ("sinceVersion", "3")]; ex_val5 [("name", "D"); ("val", "8"); ("sinceVersion", "3"); ("deprecated", "4")]] = Ok s /\
  enum_declared s /\ clear_numbers s /\ en_check versioned_ge s = true /\ (forall n d z, declared_number s n d z -> cpp_holds (T "std::uint8_t") z) /\
  enum_def_opts versioned_ge plain_fs (ex_common 0 false) s =
    Ok (opt_texts ["TExtraOpts..."; "comms::option::def::VersionStorage"; "comms::option::def::ValidNumValue<0>"]) /\
  enum_valid_body versioned_ge s = Ok (concat (map (fun r => L r ++ [nl])
    ["if (Base::valid()) {"; "    return true;"; "}"; "";
     "if (Base::getVersion() < 2) {"; "    if (Base::getValue() == static_cast<typename Base::ValueType>(1)) {"; "        return true;"; "    }"; "}"; "";
     "if ((3 <= Base::getVersion()) &&"; "    (Base::getVersion() < 4)) {"; "    if (Base::getValue() == static_cast<typename Base::ValueType>(8)) {"; "        return true;"; "    }"; "}"; "";
     "if (3 <= Base::getVersion()) {"; "    if (Base::getValue() == static_cast<typename Base::ValueType>(7)) {"; "        return true;"; "    }"; "}"; "";
     "return false;"])).
Proof.
  by_eval E. split; [exact (ex_declared _ _ _ E)|]. split; [apply clear_small; vm_compute; reflexivity|]. split; [vm_compute; reflexivity|].
  split; [|vm_compute; auto]. apply (numbers_dec _ (fun z => (0 <=? z) && (z <? 256))).
  - intros z H. right. exists 8. split; [cbn; tauto|]. unfold unsigned_bits. lia.
  - vm_compute. reflexivity.
Qed.
Definition ex_six (last : list (string * string)) : list node :=
  map (fun p => ex_val5 [("name", fst p); ("val", snd p)]) [("A", "0"); ("B", "2"); ("C", "4"); ("D", "6"); ("E", "8")] ++ [ex_val5 (("name", "F") :: ("val", "10") :: last)].
Example C60_ex_array : exists s body, ex_enum5 [("type", "uint8")] (ex_six []) = Ok s /\ enum_declared s /\ en_check plain_ge s = false /\
  enum_valid_body plain_ge s = Ok body /\ body <> [] /\ enum_def_opts plain_ge plain_fs (ex_common 0 false) s = Ok (opt_texts ["TExtraOpts..."]) /\
  (forall n d z, declared_number s n d z -> v_since d <= genSchemaVersion (ge_ver plain_ge) /\ (is_unsigned (en_type s) = true -> z < 2 ^ 63)).
Proof.
  assert (H : exists s, ex_enum5 [("type", "uint8")] (ex_six []) = Ok s /\ en_check plain_ge s = false /\ (exists c r, enum_valid_body plain_ge s = Ok (c :: r)) /\
    enum_def_opts plain_ge plain_fs (ex_common 0 false) s = Ok (opt_texts ["TExtraOpts..."]) /\
    forallb (fun x => (v_since (snd x) <=? 5) && (uns (is_big (en_type s)) (v_value (snd x)) <? 100)) (en_values s) = true).
  { by_eval E. split; [vm_compute; reflexivity|]. split; [do 2 eexists; vm_compute; reflexivity|]. split; vm_compute; reflexivity. }
  destruct H as (s & E & Ck & (c & r & Hb) & Ho & F). exists s, (c :: r). split; [exact E|]. split; [exact (ex_declared _ _ _ E)|]. split; [exact Ck|]. split; [exact Hb|]. split; [discriminate|]. split; [exact Ho|].
  clear - F. intros n d z [I S]. rewrite forallb_forall in F. apply F in I. cbn [snd] in I. apply stands_uns in S. subst z. apply andb_true_iff in I as [I1 I2].
  split; [change (genSchemaVersion (ge_ver plain_ge)) with 5; lia|]. intros _. change (2 ^ 63) with 9223372036854775808. lia.
Qed.
(** ** Failures *)
(** the range of signed 64-bit numbers is written with unsigned ones *)
Theorem C60_options_refuted : exists s o n d, enum_declared s /\ en_check plain_ge s = false /\
  enum_def_opts plain_ge plain_fs (ex_common 0 false) s = Ok o /\ enum_valid_body plain_ge s = Ok [] /\
  declared_number s n d 0 /\ v_since d = 0 /\ v_depr d = never /\ ~ base_valid o 0.
Proof.
  assert (H : exists s, ex_enum5 [("type", "int64")] [ex_val5 [("name", "A"); ("val", "-1")]; ex_val5 [("name", "B"); ("val", "0")]] = Ok s /\ en_check plain_ge s = false /\
    enum_valid_body plain_ge s = Ok [] /\ enum_def_opts plain_ge plain_fs (ex_common 0 false) s =
      Ok [T "TExtraOpts..."; an_option (T "ValidBigUnsignedNumValueRange") [T "0xFFFFFFFFFFFFFFFFULL"; T "0"]] /\
    exists d, In (T "B", d) (en_values s) /\ en_type s = Int64 /\ v_value d = 0 /\ v_since d = 0 /\ v_depr d = never).
  { by_eval E. split; [vm_compute; reflexivity|]. split; [vm_compute; reflexivity|]. split; [vm_compute; reflexivity|]. eexists. split; [right; left; reflexivity|]. vm_compute. auto. }
  destruct H as (s & E & Ck & Hb & Ho & d & Id & Ty & V & V1 & V2). eexists s, _, (T "B"), d. split; [exact (ex_declared _ _ _ E)|]. split; [exact Ck|]. split; [exact Ho|]. split; [exact Hb|].
  split; [split; [exact Id|rewrite Ty, V; reflexivity]|]. split; [exact V1|]. split; [exact V2|]. clear. intros [(o & I & A)|N].
  - destruct I as [<-|[<-|[]]].
    + inversion A; discriminate.
    + assert (C : constant (T "0xFFFFFFFFFFFFFFFFULL") (2 ^ 64 - 1)) by (apply (numU_spec (2 ^ 64 - 1)); split; [vm_compute; discriminate|vm_compute; reflexivity]).
      assert (C0 : constant (T "0") 0) by (apply (numU_spec 0); split; [vm_compute; discriminate|vm_compute; reflexivity]).
      eapply accepts_two in A; [|cbn; tauto|exact C|exact C0]. clear - A. change (2 ^ 64 - 1) with 18446744073709551615 in A. lia.
  - eapply N; [right; left; reflexivity|]. right. do 2 eexists. split; [reflexivity|]. cbn. tauto.
Qed.
Print Assumptions C60_options_refuted.
(** the array names enumerators which a forced version has left out *)
Definition forced_ge : gen_env := mkGE (mkGV 5 (Some 4) 0) false.
Theorem C60_array_refuted : exists s o body, enum_declared s /\ en_check forced_ge s = false /\
  enum_def_opts forced_ge plain_fs (ex_common 0 false) s = Ok o /\ enum_valid_body forced_ge s = Ok body /\
  exists names, tokens body = tokens (array_code names) /\
    forall vs, (forall n z, In (n, z) vs <-> exists d, declared_number s n d z /\ v_since d <= genSchemaVersion (ge_ver forced_ge)) ->
    forall v, ~ array_valid o vs names v.
Proof.
  assert (H : exists s, ex_enum5 [("type", "uint8")] (ex_six [("sinceVersion", "1")] ++ [ex_val5 [("name", "G"); ("val", "12"); ("sinceVersion", "5")]]) = Ok s /\ en_check forced_ge s = false /\
    enum_def_opts forced_ge plain_fs (ex_common 0 false) s = Ok (opt_texts ["TExtraOpts..."]) /\
    enum_valid_body forced_ge s = genProcessTemplate array_templ [(L "VALUES", genStrListToString (map (fun e : Z * str => T "ValueType::" ++ snd e) (rev_values s)) (L "," ++ [nl]) [])] false /\
    (exists b, enum_valid_body forced_ge s = Ok b) /\ In (T "G") (map snd (rev_values s)) /\ exists d, assoc (T "G") (en_values s) = Some d /\ v_since d = 5).
  { by_eval E. split; [vm_compute; reflexivity|]. split; [vm_compute; reflexivity|]. split; [vm_compute; reflexivity|]. split; [eexists; vm_compute; reflexivity|].
    split; [apply (nth_error_In _ 6); vm_compute; reflexivity|]. eexists. vm_compute. auto. }
  destruct H as (s & E & Ck & Ho & Et & (b & Eb) & Ig & d & Ad & Vd). pose proof (ex_declared _ _ _ E) as D. clear E. eexists s, _, b. split; [exact D|]. split; [exact Ck|]. split; [exact Ho|]. split; [exact Eb|].
  rewrite Eb in Et. symmetry in Et. exists (map snd (rev_values s)). split; [exact (array_text _ _ Et)|]. intros vs Hvs v (nums & F & _). clear Ck Ho Eb Et.
  destruct (F2_left _ _ _ _ F Ig) as (z & _ & J). apply Hvs in J as (d' & [Id _] & V). apply enum_declared_gen in D as G.
  destruct (value_In s _ d' G Id) as (A & _). assert (d' = d) as -> by congruence. rewrite Vd in V. change (genSchemaVersion (ge_ver forced_ge)) with 4 in V. lia.
Qed.
Print Assumptions C60_array_refuted.
