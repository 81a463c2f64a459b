(** The body of valid() of generated enum fields. *)
From Coq Require Import Lia Sorted Permutation ZifyBool ZifyNat.
From Verif.Model Require Import Base Common Xml Units Field FieldCommon IntField EnumField GenUtil GenComms CommsInt CommsEnum.
From Verif.Spec Require Import Texts Ints Versions IntSpec EnumSpec GenSpec NameSpec CppSpec CondCode BodySpec TokenSpec EnumCode.
From Verif.Proofs Require Import BaseFacts CommonFacts IntFacts RangeFacts IntInv EnumInv GenFacts TemplateFacts CommsIntFacts CommsOptFacts TokenFacts FactoryFacts EnumTextFacts EnumGenFacts EnumRangeFacts.
From Verif.Props Require Import PTemplate PCondCode.
Local Open Scope string_scope. Local Open Scope Z_scope. Local Open Scope list_scope.

Lemma F2_left {A B} (R : A -> B -> Prop) l m x : Forall2 R l m -> In x l -> exists y, In y m /\ R x y.
Proof. induction 1 as [|a b l m H F IH]; [intros []|]. intros [<-|I]; [exists b; split; [now left|exact H]|]. destruct (IH I) as (y & J & K). exists y. split; [now right|exact K]. Qed.
Lemma F2_right {A B} (R : A -> B -> Prop) l m y : Forall2 R l m -> In y m -> exists x, In x l /\ R x y.
Proof. induction 1 as [|a b l m H F IH]; [intros []|]. intros [<-|I]; [exists a; split; [now left|exact H]|]. destruct (IH I) as (x & J & K). exists x. split; [now right|exact K]. Qed.

(** ** Groups of the same versions *)
Definition group_ok (g : list vrange) : Prop := g <> [] /\ forall a b, In a g -> In b g -> r_since a = r_since b /\ r_depr a = r_depr b.
Lemma add_group_ok gs r : Forall group_ok gs -> Forall group_ok (add_group gs r) /\ concat (add_group gs r) = concat gs ++ [r].
Proof.
  intros F. assert (New : Forall group_ok (gs ++ [[r]]) /\ concat (gs ++ [[r]]) = concat gs ++ [r]).
  { split; [|rewrite concat_app; reflexivity]. apply Forall_app. split; [exact F|]. constructor; [|constructor]. split; [discriminate|].
    intros a b [<-|[]] [<-|[]]. auto. }
  unfold add_group. destruct (rev gs) as [|g gr] eqn:E; [exact New|]. destruct g as [|x g]; [exact New|]. destruct (same_vers _ _) eqn:S; [|exact New].
  assert (Eg : gs = rev gr ++ [x :: g]) by (rewrite <- (rev_involutive gs), E; reflexivity). rewrite Eg in *. clear Eg E New. rewrite removelast_last.
  apply Forall_app in F as [F1 F2]. inversion F2 as [|? ? [_ Sm] _]; subst. split.
  - apply Forall_app. split; [exact F1|]. constructor; [|constructor]. split; [discriminate|]. set (h := x :: g) in *.
    assert (Il : In (last h x) h) by (apply last_In; discriminate). apply andb_true_iff in S as [S1 S2]. rewrite Z.eqb_eq in *.
    assert (Kr : forall a, In a h -> r_since a = r_since r /\ r_depr a = r_depr r).
    { intros a I. destruct (Sm a _ I Il). split; congruence. }
    intros a b Ia Ib. apply in_app_iff in Ia as [Ia|[<-|[]]]; apply in_app_iff in Ib as [Ib|[<-|[]]]; auto.
    destruct (Kr b Ib). auto.
  - rewrite !concat_app. cbn [concat]. rewrite !app_nil_r, app_assoc. reflexivity.
Qed.
Lemma version_groups_ok rs : Forall group_ok (version_groups rs) /\ concat (version_groups rs) = filter (fun r => negb (uncond r)) rs.
Proof.
  unfold version_groups. set (l := filter _ rs). clearbody l.
  assert (K : forall l gs, Forall group_ok gs -> Forall group_ok (fold_left add_group l gs) /\ concat (fold_left add_group l gs) = concat gs ++ l).
  { clear. induction l as [|r l IH]; intros gs F; cbn [fold_left]; [rewrite app_nil_r; auto|]. destruct (add_group_ok gs r F) as [A B].
    destruct (IH _ A) as [C D]. split; [exact C|]. rewrite D, B, <- app_assoc. reflexivity. }
  destruct (K l [] (Forall_nil _)) as [A B]. split; [exact A|]. rewrite B. reflexivity.
Qed.

(** ** Meaning of the tests *)
Lemma test_inv ty v w t : test_true ty v w t ->
  (exists a x, constant a x /\ x <= w /\ t = a ++ T " <= Base::getVersion()") \/
  (exists a x, constant a x /\ w < x /\ t = T "Base::getVersion() < " ++ a) \/
  (exists a x, constant a x /\ converted ty x v /\ t = T "Base::getValue() == static_cast<typename Base::ValueType>(" ++ a ++ T ")") \/
  (exists a x y, constant a x /\ converted ty x y /\ y <= v /\ t = T "static_cast<typename Base::ValueType>(" ++ a ++ T ") <= Base::getValue()") \/
  (exists a x y, constant a x /\ converted ty x y /\ v <= y /\ t = T "Base::getValue() <= static_cast<typename Base::ValueType>(" ++ a ++ T ")").
Proof. intros [a x C H|a x C H|a x C H|a x y C H1 H2|a x y C H1 H2]; eauto 12. Qed.
Ltac test_cases A :=
  let a := fresh "a" in let x := fresh "x" in let y := fresh "y" in let C := fresh "C" in let E := fresh "E" in
  apply test_inv in A as [(a & x & C & A & E)|[(a & x & C & A & E)|[(a & x & C & A & E)|[(a & x & y & C & A & ?B & E)|(a & x & y & C & A & ?B & E)]]]].
Ltac no_start := exfalso;
  match goal with E : ?a ++ T " <= Base::getVersion()" = T _ ++ _, C : constant ?a _ |- _ => cbn [T list_ascii_of_string app] in E;
                    eapply head_ne in E; [exact E|exact C|cbn; intuition discriminate]
                | E : T _ ++ _ = ?a ++ T " <= Base::getVersion()", C : constant ?a _ |- _ => symmetry in E; cbn [T list_ascii_of_string app] in E;
                    eapply head_ne in E; [exact E|exact C|cbn; intuition discriminate] end.
Lemma since_test ty v w a x : constant a x -> test_true ty v w (a ++ T " <= Base::getVersion()") <-> x <= w.
Proof.
  intros Ca. split; [|intros; now constructor 1 with x]. intros A. test_cases A; try no_start.
  apply app_inv_tail in E. subst a0. now rewrite (constant_det _ _ _ Ca C).
Qed.
Lemma until_test ty v w a x : constant a x -> test_true ty v w (T "Base::getVersion() < " ++ a) <-> w < x.
Proof.
  intros Ca. split; [|intros; now constructor 2 with x]. intros A. test_cases A; try no_start; try discriminate E.
  apply app_inv_head in E. subst a0. now rewrite (constant_det _ _ _ Ca C).
Qed.
Lemma is_test ty v w a x : constant a x -> cpp_holds ty x ->
  test_true ty v w (T "Base::getValue() == static_cast<typename Base::ValueType>(" ++ a ++ T ")") <-> v = x.
Proof.
  intros Ca Hx. split; [|intros ->; constructor 3 with x; [exact Ca|now apply converted_iff]].
  intros A. test_cases A; try no_start; try discriminate E. apply app_inv_head, app_inv_tail in E. subst a0.
  rewrite <- (constant_det _ _ _ Ca C) in A. now apply converted_iff in A.
Qed.
Lemma from_test ty v w a x : constant a x -> cpp_holds ty x ->
  test_true ty v w (T "static_cast<typename Base::ValueType>(" ++ a ++ T ") <= Base::getValue()") <-> x <= v.
Proof.
  intros Ca Hx. split; [|intros; constructor 4 with x x; [exact Ca|now apply converted_iff|assumption]].
  intros A. test_cases A; try no_start; try discriminate E. apply app_inv_head, app_inv_tail in E. subst a0.
  rewrite <- (constant_det _ _ _ Ca C) in A. apply converted_iff in A; [|exact Hx]. now subst.
Qed.
Lemma to_test ty v w a x : constant a x -> cpp_holds ty x ->
  test_true ty v w (T "Base::getValue() <= static_cast<typename Base::ValueType>(" ++ a ++ T ")") <-> v <= x.
Proof.
  intros Ca Hx. split; [|intros; constructor 5 with x x; [exact Ca|now apply converted_iff|assumption]].
  intros A. test_cases A; try no_start; try discriminate E. apply app_inv_head, app_inv_tail in E. subst a0.
  rewrite <- (constant_det _ _ _ Ca C) in A. apply converted_iff in A; [|exact Hx]. now subst.
Qed.

(** ** One range *)
Definition val_tests (r : vrange) (lo hi : txt) : list txt :=
  if r_min r =? r_max r then [T "Base::getValue() == static_cast<typename Base::ValueType>(" ++ lo ++ T ")"]
  else [T "static_cast<typename Base::ValueType>(" ++ lo ++ T ") <= Base::getValue()"; T "Base::getValue() <= static_cast<typename Base::ValueType>(" ++ hi ++ T ")"].
Lemma comparison_code big r c : r64 r -> comparison big r = Ok c ->
  exists lo hi, constant lo (uns big (r_min r)) /\ constant hi (uns big (r_max r)) /\ tokens c = tokens (accept_code (val_tests r lo hi)).
Proof.
  intros [M1 M2] H. unfold comparison in H. apply bind_Ok in H as ([lo hi] & Hb & H).
  assert (B : constant lo (uns big (r_min r)) /\ constant hi (uns big (r_max r))).
  { unfold uns. destruct big.
    - apply Ok_inj in Hb. apply pair_equal_spec in Hb as [<- <-]. split; apply numU_spec, to_u64_range.
    - apply bind_Ok in Hb as (a & Ha & Hb). apply bind_Ok in Hb as (b & Hb' & Hb). apply Ok_inj in Hb.
      apply pair_equal_spec in Hb as [<- <-]. split; apply numS_spec; assumption. }
  exists lo, hi. destruct B as [B1 B2]. split; [exact B1|]. split; [exact B2|]. clear B1 B2 Hb. unfold val_tests.
  assert (K : forall t l, cut_template 20 t = Some l -> forall rp c', genProcessTemplate t rp false = Ok c' -> tokens c' = tokens (substituted (fun k => lookup k rp) l)).
  { intros t l Hl rp c' Hc. destruct (template_tokens 20 t l rp false Hl) as (out & E & W). rewrite E in Hc. apply Ok_inj in Hc. now subst. }
  destruct (r_min r =? r_max r).
  - apply (K _ [Text (T "if (Base::getValue() == static_cast<typename Base::ValueType>("); Hole (L "MIN_VALUE"); Text (T ")) {" ++ [nl] ++ T "    return true;" ++ [nl] ++ T "}")]) in H; [|vm_compute; reflexivity].
    rewrite H. transitivity (tokens (T "if (Base::getValue() == static_cast<typename Base::ValueType>(" ++ lo ++ (T ")) {" ++ [nl] ++ T "    return true;" ++ [nl] ++ T "}"))); [reflexivity|].
    unfold accept_code, all_text. same.
  - apply (K _ [Text (T "if ((static_cast<typename Base::ValueType>("); Hole (L "MIN_VALUE"); Text (T ") <= Base::getValue()) &&" ++ [nl] ++ T "    (Base::getValue() <= static_cast<typename Base::ValueType>(");
      Hole (L "MAX_VALUE"); Text (T "))) {" ++ [nl] ++ T "    return true;" ++ [nl] ++ T "}")]) in H; [|vm_compute; reflexivity].
    rewrite H. transitivity (tokens (T "if ((static_cast<typename Base::ValueType>(" ++ lo ++ (T ") <= Base::getValue()) &&" ++ [nl] ++ T "    (Base::getValue() <= static_cast<typename Base::ValueType>(") ++
      hi ++ (T "))) {" ++ [nl] ++ T "    return true;" ++ [nl] ++ T "}"))); [reflexivity|].
    unfold accept_code, all_text. cbn [map join]. same.
Qed.
Lemma val_tests_spec ty v w big r lo hi : constant lo (uns big (r_min r)) -> constant hi (uns big (r_max r)) ->
  cpp_holds ty (uns big (r_min r)) -> cpp_holds ty (uns big (r_max r)) -> Forall (test_true ty v w) (val_tests r lo hi) <-> covers big r v.
Proof.
  intros C1 C2 H1 H2. unfold val_tests, covers. destruct (r_min r =? r_max r) eqn:E.
  - rewrite Forall_cons_iff, (is_test _ _ _ _ _ C1 H1). assert (r_max r = r_min r) as -> by lia. split; [intros [-> _]; lia|]. intros. split; [lia|constructor].
  - rewrite !Forall_cons_iff, (from_test _ _ _ _ _ C1 H1), (to_test _ _ _ _ _ C2 H2). split; [tauto|]. intros [A B]. repeat split; [exact A|exact B|constructor].
Qed.

(** ** The groups *)
Definition ver_tests (r : vrange) : list txt :=
  if r_since r =? 0 then [T "Base::getVersion() < " ++ genNumToStringU (r_depr r) 0]
  else if not_deprecated <=? r_depr r then [genNumToStringU (r_since r) 0 ++ T " <= Base::getVersion()"]
  else [genNumToStringU (r_since r) 0 ++ T " <= Base::getVersion()"; T "Base::getVersion() < " ++ genNumToStringU (r_depr r) 0].
Lemma ver_tests_spec ty v w r : in_order r -> uncond r = false -> 0 <= w < never -> Forall (test_true ty v w) (ver_tests r) <-> r_since r <= w < r_depr r.
Proof.
  intros O U Hw. unfold in_order, uncond, never in *. change not_deprecated with 4294967295 in *.
  assert (C1 : constant (genNumToStringU (r_since r) 0) (r_since r)) by (apply numU_spec; unfold two64; lia).
  assert (C2 : constant (genNumToStringU (r_depr r) 0) (r_depr r)) by (apply numU_spec; unfold two64; lia).
  unfold ver_tests. change not_deprecated with 4294967295. destruct (r_since r =? 0) eqn:E1; [|destruct (4294967295 <=? r_depr r) eqn:E2].
  - rewrite Forall_cons_iff, (until_test _ _ _ _ _ C2). split; [lia|]. intros. split; [lia|constructor].
  - rewrite Forall_cons_iff, (since_test _ _ _ _ _ C1). split; [lia|]. intros. split; [lia|constructor].
  - rewrite !Forall_cons_iff, (until_test _ _ _ _ _ C2), (since_test _ _ _ _ _ C1). split; [lia|]. intros. repeat split; [lia|lia|constructor].
Qed.
Lemma accept_ends t : ends (accept_code t) = true.
Proof. unfold accept_code. rewrite app_assoc. apply (ends_snoc _ (T ") { return true; }") " "%char). Qed.
Lemma accepts_tokens ts : tokens (concat (map accept_code ts)) = flat_map (fun t => tokens (accept_code t)) ts.
Proof. induction ts as [|t ts IH]; [reflexivity|]. cbn [map concat flat_map]. now rewrite tokens_l, IH by apply accept_ends. Qed.
Lemma list2_tokens l : tokens (genStrListToString l [nl; nl] []) = flat_map tokens l.
Proof.
  induction l as [|x l IH]; [reflexivity|]. destruct l as [|y l].
  - cbn [genStrListToString flat_map]. now rewrite !app_nil_r.
  - change (genStrListToString (x :: y :: l) [nl; nl] []) with (x ++ [nl; nl] ++ genStrListToString (y :: l) [nl; nl] []). change (x ++ [nl; nl] ++ genStrListToString (y :: l) [nl; nl] []) with (x ++ nl :: nl :: genStrListToString (y :: l) [nl; nl] []).
    rewrite tokens_nl. change (flat_map tokens (x :: y :: l)) with (tokens x ++ flat_map tokens (y :: l)). rewrite <- IH. reflexivity.
Qed.
Lemma comparisons_code big g cs : Forall r64 g -> mapM (comparison big) g = Ok cs ->
  exists tests, flat_map tokens cs = flat_map (fun t => tokens (accept_code t)) tests /\
    Forall2 (fun r t => exists lo hi, constant lo (uns big (r_min r)) /\ constant hi (uns big (r_max r)) /\ t = val_tests r lo hi) g tests.
Proof.
  intros F H. apply mapM_Forall2 in H. induction H as [|r c g cs H _ IH]; [exists []; split; [reflexivity|constructor]|].
  inversion F as [|? ? R F']; subst. destruct (IH F') as (ts & E & K). destruct (comparison_code big r c R H) as (lo & hi & C1 & C2 & Ec).
  exists (val_tests r lo hi :: ts). split; [cbn [flat_map]; now rewrite E, Ec|]. constructor; [eauto|exact K].
Qed.
Lemma template_of t l rp c : cut_template 30 t = Some l -> genProcessTemplate t rp false = Ok c -> tokens c = tokens (substituted (fun k => lookup k rp) l).
Proof. intros Hl Hc. destruct (template_tokens 30 t l rp false Hl) as (out & E & W). rewrite E in Hc. apply Ok_inj in Hc. now subst. Qed.
Lemma group_text_code big r g t : Forall r64 (r :: g) -> group_text big (r :: g) = Ok t ->
  exists tests, tokens t = tokens (group_code (ver_tests r, tests)) /\
    Forall2 (fun r t => exists lo hi, constant lo (uns big (r_min r)) /\ constant hi (uns big (r_max r)) /\ t = val_tests r lo hi) (r :: g) tests.
Proof.
  intros F H. unfold group_text in H. apply bind_Ok in H as (cs & Hc & H). destruct (comparisons_code _ _ _ F Hc) as (tests & E & K).
  exists tests. split; [|exact K]. unfold group_code. cbn [fst snd]. rewrite <- list2_tokens, <- accepts_tokens in E.
  set (C := genStrListToString cs [nl; nl] []) in *. set (A := concat (map accept_code tests)) in *. unfold ver_tests.
  set (f := genNumToStringU (r_since r) 0) in *. set (u := genNumToStringU (r_depr r) 0) in *. clearbody f u C A. clear Hc K F.
  destruct (r_since r =? 0); [|destruct (not_deprecated <=? r_depr r)].
  - eapply template_of in H; [|vm_compute; reflexivity]. rewrite H. clear H.
    transitivity (tokens (T "if (Base::getVersion() < " ++ u ++ (T ") {" ++ [nl] ++ T "    ") ++ C ++ ([nl] ++ T "}" ++ [nl]))); [reflexivity|].
    unfold all_text. cuts. rewrite E. same.
  - eapply template_of in H; [|vm_compute; reflexivity]. rewrite H. clear H.
    transitivity (tokens (T "if (" ++ f ++ (T " <= Base::getVersion()) {" ++ [nl] ++ T "    ") ++ C ++ ([nl] ++ T "}" ++ [nl]))); [reflexivity|].
    unfold all_text. cuts. rewrite E. same.
  - eapply template_of in H; [|vm_compute; reflexivity]. rewrite H. clear H.
    transitivity (tokens (T "if ((" ++ f ++ (T " <= Base::getVersion()) &&" ++ [nl] ++ T "    (Base::getVersion() < ") ++ u ++ (T ")) {" ++ [nl] ++ T "    ") ++ C ++ ([nl] ++ T "}" ++ [nl]))); [reflexivity|].
    unfold all_text. cbn [map join]. cuts. rewrite E. same.
Qed.
Lemma group_ends g : ends (group_code g) = true.
Proof. unfold group_code. rewrite !app_assoc. apply (ends_snoc _ (T "}") " "%char). Qed.
Lemma groups_tokens gs : tokens (concat (map group_code gs)) = flat_map (fun t => tokens (group_code t)) gs.
Proof. induction gs as [|t ts IH]; [reflexivity|]. cbn [map concat flat_map]. now rewrite tokens_l, IH by apply group_ends. Qed.
Lemma ends_cat a b : ends a = true -> ends b = true -> ends (a ++ b) = true.
Proof.
  induction a as [|c a IH]; [auto|]. cbn [app ends]. destruct a as [|d a]; [|exact IH]. cbn [app]. intros H. destruct b; [intros _; exact H|auto].
Qed.
Lemma groups_ends gs : ends (concat (map group_code gs)) = true.
Proof. induction gs as [|g gs IH]; [reflexivity|]. cbn [map concat]. apply ends_cat; [apply group_ends|exact IH]. Qed.
(** the code of all groups *)
Lemma groups_text_code big gs ts : Forall (fun g => group_ok g /\ Forall r64 g) gs -> mapM (group_text big) gs = Ok ts ->
  exists codes, flat_map tokens ts = flat_map (fun t => tokens (group_code t)) codes /\
    Forall2 (fun g c => exists r, In r g /\ fst c = ver_tests r /\
      Forall2 (fun r t => exists lo hi, constant lo (uns big (r_min r)) /\ constant hi (uns big (r_max r)) /\ t = val_tests r lo hi) g (snd c)) gs codes.
Proof.
  intros F H. apply mapM_Forall2 in H. induction H as [|g t gs ts H _ IH]; [exists []; split; [reflexivity|constructor]|].
  inversion F as [|? ? [[N _] R] F']; subst. destruct (IH F') as (cs & E & K). destruct g as [|r g]; [congruence|].
  destruct (group_text_code big r g t R H) as (tests & Et & Kt). exists ((ver_tests r, tests) :: cs). split; [cbn [flat_map]; now rewrite E, Et|].
  constructor; [|exact K]. exists r. split; [now left|]. split; [reflexivity|exact Kt].
Qed.
Lemma body_code conds codes body : tokens conds = flat_map (fun t => tokens (group_code t)) codes ->
  genProcessTemplate groups_templ [(L "CONDITIONS", conds)] false = Ok body -> tokens body = tokens (groups_code codes).
Proof.
  intros E H. rewrite <- groups_tokens in E. eapply template_of in H; [|vm_compute; reflexivity]. rewrite H. clear H.
  unfold groups_code. pose proof (groups_ends codes) as N. set (G := concat (map group_code codes)) in *. clearbody G.
  transitivity (tokens ((T "if (Base::valid()) {" ++ [nl] ++ T "    return true;" ++ [nl] ++ T "}" ++ [nl; nl]) ++ conds ++ ([nl] ++ T "return false;" ++ [nl]))); [reflexivity|].
  rewrite (tokens_l (T "if (Base::valid()) { return true; } ")) by reflexivity. rewrite (tokens_l G) by exact N. rewrite <- E. clear E N. same.
Qed.
