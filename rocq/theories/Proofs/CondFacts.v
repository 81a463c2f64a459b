From Verif.Model Require Import Base Common Xml Units Field FieldCommon IntField EnumField SetField FloatField OptCond.
From Verif.Spec Require Import Texts CondSpec.
From Verif.Proofs Require Import BaseFacts CommonFacts.

Lemma starts_with_spec op s : starts_with op s = true <-> exists t, s = op ++ t.
Proof.
  revert s. induction op as [|x op IH]; intros s; simpl.
  - split; eauto.
  - destruct s as [|y s].
    + split; [discriminate|]. intros (t & E). discriminate.
    + unfold ch_eqb. rewrite andb_true_iff, Ascii.eqb_eq, IH. split.
      * intros (-> & t & ->). eauto.
      * intros (t & E). injection E as -> ->. eauto.
Qed.

Lemma find_op_spec op : op <> [] -> forall s acc l r, find_op op acc s = Ok (Some (l, r)) ->
  exists m, l = rev acc ++ m /\ s = m ++ op ++ r /\ l <> [] /\ last l " "%char <> "\"%char /\
    (forall a b, m = a ++ b -> b <> [] -> rev acc ++ a <> [] -> last (rev acc ++ a) "\"%char <> "\"%char ->
       ~ exists t, b ++ op ++ r = op ++ t).
Proof.
  intros Hop. induction s as [|c s IH]; intros acc l r H; [discriminate|].
  cbn [find_op] in H. destruct (starts_with op (c :: s)) eqn:E.
  - destruct acc as [|p acc]; [discriminate|].
    destruct (ch_eqb p "\") eqn:Ep.
    + apply IH in H as (m & E1 & E2 & E3 & E4 & E5). exists (c :: m). cbn [rev] in *.
      split; [rewrite E1, <- !app_assoc; reflexivity|]. split; [rewrite E2; reflexivity|].
      split; [exact E3|]. split; [exact E4|].
      intros a b Eab Nb Na La. destruct a as [|a0 a].
      * rewrite app_nil_r in La. rewrite last_last in La. apply Ascii.eqb_eq in Ep. congruence.
      * injection Eab as -> Eab. apply (E5 a b Eab Nb).
        { rewrite <- app_assoc. cbn. intros X. apply app_eq_nil in X as [_ X]. discriminate. }
        replace ((rev acc ++ [p]) ++ a0 :: a) with (((rev acc ++ [p]) ++ [a0]) ++ a) in La by (rewrite <- !app_assoc; reflexivity).
        exact La.
    + injection H as <- <-. exists []. rewrite app_nil_r.
      apply starts_with_spec in E as (t & E). cbn [rev].
      split; [reflexivity|]. split.
      { rewrite E, skipn_app, skipn_all, Nat.sub_diag. reflexivity. }
      split; [destruct (rev acc); discriminate|]. split.
      { rewrite last_last. intros X. apply Ascii.eqb_neq in Ep. congruence. }
      intros a b Eab Nb. symmetry in Eab. apply app_eq_nil in Eab as [_ ->]. congruence.
  - apply IH in H as (m & E1 & E2 & E3 & E4 & E5). exists (c :: m). cbn [rev] in *.
    split; [rewrite E1, <- !app_assoc; reflexivity|]. split; [rewrite E2; reflexivity|].
    split; [exact E3|]. split; [exact E4|].
    intros a b Eab Nb Na La. destruct a as [|a0 a].
    + cbn in Eab. intros X. rewrite <- Eab in X. change ((c :: m) ++ op ++ r) with (c :: (m ++ op ++ r)) in X.
      rewrite <- E2 in X. apply starts_with_spec in X. congruence.
    + injection Eab as -> Eab. apply (E5 a b Eab Nb).
      { rewrite <- app_assoc. cbn. intros X. apply app_eq_nil in X as [_ X]. discriminate. }
      replace (rev acc ++ a0 :: a) with ((rev acc ++ [a0]) ++ a) in La by (rewrite <- app_assoc; reflexivity).
      exact La.
Qed.

Lemma drop_while_split q s : exists a, s = a ++ drop_while q s /\ Forall (fun c => q c = true) a /\
  (forall c r, drop_while q s = c :: r -> q c = false).
Proof.
  induction s as [|c s (a & E1 & E2 & E3)]; cbn [drop_while].
  - exists []. repeat split; auto. discriminate.
  - destruct (q c) eqn:Q.
    + exists (c :: a). split; [cbn; f_equal; exact E1|]. split; [constructor; auto|exact E3].
    + exists []. split; [reflexivity|]. split; [constructor|]. intros x r E. injection E as <- <-. exact Q.
Qed.
Lemma drop_while_end_split q s : exists a, s = drop_while_end q s ++ a /\ Forall (fun c => q c = true) a /\
  (forall c r, drop_while_end q s = r ++ [c] -> q c = false).
Proof.
  unfold drop_while_end. destruct (drop_while_split q (rev s)) as (a & E1 & E2 & E3).
  exists (rev a). split.
  - rewrite <- rev_app_distr, <- E1. symmetry; apply rev_involutive.
  - split; [apply Forall_rev; exact E2|]. intros c r E. apply (E3 c (rev r)).
    apply (f_equal (@rev _)) in E. rewrite rev_involutive, rev_app_distr in E. exact E.
Qed.
Lemma is_sp_iff c : is_sp c = true <-> c = " "%char.
Proof. unfold is_sp, ch_eqb. apply Ascii.eqb_eq. Qed.
Lemma is_sp_all s : Forall (fun c => is_sp c = true) s -> spaces s.
Proof. intros H. eapply Forall_impl; [|exact H]. intros c. apply is_sp_iff. Qed.

Lemma deref_ok_operand e s : deref_ok e s = true -> operand s.
Proof.
  unfold deref_ok, operand. destruct s as [|c r]; [discriminate|].
  unfold ch_eqb, c_sibling, c_interface. intros H. exists c, r. split; [reflexivity|].
  apply orb_true_iff in H as [H|H]; [left; apply Ascii.eqb_eq; exact H|].
  apply andb_true_iff in H as [H _]. right. apply Ascii.eqb_eq; exact H.
Qed.

Lemma check_comparison_spec e expr op c : In op operators -> check_comparison e expr op = Ok (Some c) ->
  exists l r, c = CExpr l op r /\ comparison_text expr l op r.
Proof.
  intros Hop H. unfold check_comparison in H.
  apply bind_Ok in H as (o & H1 & H). destruct o as [[l rr]|]; [|discriminate].
  apply bind_Ok in H as (u & H2 & H). apply bind_Ok in H as (u' & H3 & H). injection H as <-.
  apply guard_Ok in H2, H3. apply andb_true_iff in H2 as [H2 H4].
  assert (Nop : op <> []). { intros ->. vm_compute in Hop. intuition discriminate. }
  apply (find_op_spec op Nop) in H1 as (m & E1 & E2 & E3 & E4 & E5). cbn [rev app] in *. subst m.
  destruct (drop_while_end_split is_sp l) as (s1 & F1 & F2 & F3).
  destruct (drop_while_split is_sp rr) as (s2 & G1 & G2 & G3).
  set (left := drop_while_end is_sp l) in *. set (right := drop_while is_sp rr) in *.
  exists left, right. split; [reflexivity|]. exists s1, s2.
  split; [rewrite E2, F1 at 1; rewrite G1 at 1; rewrite <- !app_assoc; reflexivity|].
  split; [apply is_sp_all; exact F2|]. split; [apply is_sp_all; exact G2|]. split; [exact Hop|].
  split; [eapply deref_ok_operand; eauto|]. split; [intros X; rewrite X in H4; discriminate|].
  split. { intros c r Ec X. apply F3 in Ec. apply is_sp_iff in X. congruence. }
  split. { intros c r Ec X. apply G3 in Ec. apply is_sp_iff in X. congruence. }
  rewrite <- F1, <- G1. split; [|exact E4].
  intros a b Eab Na La (t & Et & Nb). apply (E5 a b Eab Nb Na La). eauto.
Qed.

Lemma check_bool_spec e expr c : check_bool e expr = Ok c -> exists op r, c = CExpr [] op r /\ single_text expr op r.
Proof.
  unfold check_bool. destruct expr as [|ch r]; [discriminate|].
  destruct (ch_eqb ch c_sibling || ch_eqb ch c_interface) eqn:E.
  - intros H. apply bind_Ok in H as (u & H1 & H). injection H as <-. apply guard_Ok in H1.
    exists [], (ch :: r). split; [reflexivity|]. left. repeat split. eapply deref_ok_operand; eauto.
  - destruct (ch_eqb ch "!") eqn:E1; [|discriminate].
    intros H. apply bind_Ok in H as (u & H1 & H). injection H as <-. apply guard_Ok in H1.
    exists (L "!"), (drop_while is_sp r). split; [reflexivity|]. right. split; [reflexivity|].
    destruct (drop_while_split is_sp r) as (a & G1 & G2 & G3).
    exists a. split; [|split; [apply is_sp_all; exact G2|eapply deref_ok_operand; eauto]].
    apply Ascii.eqb_eq in E1. subst ch. f_equal. exact G1.
Qed.

Lemma try_ops_spec e expr ops c : (forall o, In o ops -> In o operators) -> try_ops e expr ops = Ok c ->
  exists l op r, c = CExpr l op r /\ (comparison_text expr l op r \/ l = [] /\ single_text expr op r).
Proof.
  induction ops as [|o ops IH]; intros Hin H; cbn [try_ops] in H.
  - apply check_bool_spec in H as (op & r & E & F). exists [], op, r. auto.
  - apply bind_Ok in H as (x & H1 & H). destruct x as [c'|].
    + injection H as ->. apply check_comparison_spec in H1 as (l & r & E & F); [|apply Hin; left; reflexivity].
      exists l, o, r. auto.
    + apply IH; [intros; apply Hin; right; assumption|exact H].
Qed.
Lemma ops_are_operators o : In o cond_ops -> In o operators.
Proof. intros H. exact H. Qed.

(** the other direction *)
Lemma find_op_none op s : (exists c o, op = c :: o /\ ~ In c s) -> forall acc, find_op op acc s = Ok None.
Proof.
  intros (c & o & -> & H). induction s as [|x s IH]; intros acc; [reflexivity|].
  cbn [find_op]. replace (starts_with (c :: o) (x :: s)) with false.
  - apply IH. intros X. apply H. right. exact X.
  - symmetry. destruct (starts_with (c :: o) (x :: s)) eqn:E; [|reflexivity].
    apply starts_with_spec in E as (t & E). injection E as -> _. exfalso. apply H. left. reflexivity.
Qed.
Lemma find_op_hit c o : forall m acc r, ~ In c m -> (rev acc ++ m <> []) ->
  last (rev acc ++ m) " "%char <> "\"%char ->
  find_op (c :: o) acc (m ++ (c :: o) ++ r) = Ok (Some (rev acc ++ m, r)).
Proof.
  induction m as [|x m IH]; intros acc r Hn Hne Hl.
  - rewrite app_nil_r in *. cbn [app find_op].
    replace (starts_with (c :: o) (c :: o ++ r)) with true by (symmetry; apply starts_with_spec; exists r; reflexivity).
    destruct acc as [|p acc]; [cbn in Hne; congruence|].
    cbn [rev] in Hl. rewrite last_last in Hl.
    replace (ch_eqb p "\") with false by (symmetry; apply Ascii.eqb_neq; exact Hl).
    replace (skipn (length (c :: o)) (c :: o ++ r)) with r; [reflexivity|].
    change (c :: o ++ r) with ((c :: o) ++ r). rewrite skipn_app, skipn_all, Nat.sub_diag. reflexivity.
  - assert (Hx : c <> x) by (intros ->; apply Hn; left; reflexivity).
    cbn [app find_op]. replace (starts_with (c :: o) (x :: m ++ c :: o ++ r)) with false.
    + change (m ++ c :: o ++ r) with (m ++ (c :: o) ++ r). rewrite IH.
      * cbn [rev]. rewrite <- app_assoc. reflexivity.
      * intros X. apply Hn. right. exact X.
      * cbn [rev]. rewrite <- app_assoc. intros X. apply app_eq_nil in X as [_ X]. discriminate.
      * cbn [rev]. rewrite <- app_assoc. exact Hl.
    + symmetry. destruct (starts_with (c :: o) (x :: m ++ c :: o ++ r)) eqn:E; [|reflexivity].
      apply starts_with_spec in E as (t & E). injection E as E _. congruence.
Qed.

Lemma find_op_none_gen op s : op <> [] -> (exists c, In c op /\ ~ In c s) -> forall acc, find_op op acc s = Ok None.
Proof.
  intros Hop (c & H1 & H2). induction s as [|x s IH]; intros acc; [reflexivity|].
  cbn [find_op]. replace (starts_with op (x :: s)) with false.
  - apply IH. intros X. apply H2. right. exact X.
  - symmetry. destruct (starts_with op (x :: s)) eqn:E; [|reflexivity].
    apply starts_with_spec in E as (t & E). exfalso. apply H2. rewrite E. apply in_or_app. auto.
Qed.
Lemma check_comparison_none e expr op c : op <> [] -> In c op -> ~ In c expr -> check_comparison e expr op = Ok None.
Proof. intros Hop H1 H2. unfold check_comparison. rewrite find_op_none_gen by eauto. reflexivity. Qed.

Lemma drop_while_spaces s r : spaces s -> no_leading_space r -> drop_while is_sp (s ++ r) = r.
Proof.
  intros Hs Hr. induction Hs as [|c s -> Hs IH]; cbn [app drop_while].
  - destruct r as [|c r]; [reflexivity|]. cbn [drop_while].
    replace (is_sp c) with false; [reflexivity|]. symmetry. apply not_true_is_false.
    intros X. apply is_sp_iff in X. apply (Hr c r eq_refl X).
  - exact IH.
Qed.
Lemma drop_while_end_spaces s r : spaces s -> no_trailing_space r -> drop_while_end is_sp (r ++ s) = r.
Proof.
  intros Hs Hr. unfold drop_while_end. rewrite rev_app_distr, drop_while_spaces.
  - apply rev_involutive.
  - apply Forall_rev. exact Hs.
  - intros c t E. apply (Hr c (rev t)). rewrite <- (rev_involutive r), E. reflexivity.
Qed.
Lemma last_app_ne {A} (a b : list A) d : b <> [] -> last (a ++ b) d = last b d.
Proof.
  intros H. induction a as [|x a IH]; [reflexivity|].
  cbn [app last]. destruct (a ++ b) eqn:E; [apply app_eq_nil in E as [_ E]; congruence|]. exact IH.
Qed.
Lemma last_spaces s d : spaces s -> s <> [] -> last s d = " "%char.
Proof.
  intros Hs. induction Hs as [|c s -> Hs IH]; [congruence|]. intros _.
  destruct s as [|c s]; [reflexivity|]. change (last (" "%char :: c :: s) d) with (last (c :: s) d).
  apply IH. discriminate.
Qed.

Lemma check_comparison_hit e l s1 c o s2 r :
  (exists l', l = "$"%char :: l') -> r <> [] -> spaces s1 -> spaces s2 ->
  no_trailing_space l -> no_leading_space r -> (s1 = [] -> last l " "%char <> "\"%char) ->
  ~ In c (l ++ s1) ->
  check_comparison e (l ++ s1 ++ (c :: o) ++ s2 ++ r) (c :: o) = Ok (Some (CExpr l (c :: o) r)).
Proof.
  intros (l' & ->) Hr H1 H2 Hl Hr2 Hb Hn. unfold check_comparison.
  replace (("$"%char :: l') ++ s1 ++ (c :: o) ++ s2 ++ r)
    with ((("$"%char :: l') ++ s1) ++ (c :: o) ++ (s2 ++ r)) by (rewrite <- !app_assoc; reflexivity).
  rewrite find_op_hit; [|exact Hn|discriminate|].
  - cbn [bind rev app]. change ("$"%char :: l' ++ s1) with (("$"%char :: l') ++ s1).
    rewrite drop_while_end_spaces by assumption. rewrite drop_while_spaces by assumption.
    destruct r as [|x r]; [congruence|]. reflexivity.
  - cbn [rev app]. change ("$"%char :: l' ++ s1) with (("$"%char :: l') ++ s1).
    destruct s1 as [|x s1].
    + rewrite app_nil_r. apply Hb. reflexivity.
    + rewrite last_app_ne by discriminate. rewrite last_spaces; [discriminate|assumption|discriminate].
Qed.

Lemma spaces_notop s c : spaces s -> operator_char c -> ~ In c s.
Proof.
  intros Hs Hc Hi. unfold spaces in Hs. rewrite Forall_forall in Hs. apply Hs in Hi. subst.
  destruct Hc as [?|[?|[?|?]]]; discriminate.
Qed.
Lemma cond_expr_roundtrip e l s1 op s2 r :
  (exists l', l = "$"%char :: l') -> r <> [] -> In op operators -> spaces s1 -> spaces s2 ->
  no_trailing_space l -> no_leading_space r -> (s1 = [] -> last l " "%char <> "\"%char) ->
  (forall c, In c (l ++ r) -> ~ operator_char c) ->
  cond_expr e (l ++ s1 ++ op ++ s2 ++ r) = Ok (CExpr l op r).
Proof.
  intros Hl Hr Hop H1 H2 Hlt Hrl Hb Hc.
  assert (Ns1 : forall c, operator_char c -> ~ In c (l ++ s1)).
  { intros c X Hi. apply in_app_or in Hi as [Hi|Hi].
    - apply (Hc c); [apply in_or_app; auto|exact X].
    - revert Hi; apply spaces_notop; auto. }
  assert (Nall : forall c, operator_char c -> ~ In c op -> ~ In c (l ++ s1 ++ op ++ s2 ++ r)).
  { intros c X Hn Hi. rewrite app_assoc in Hi. apply in_app_or in Hi as [Hi|Hi]; [eapply Ns1; eauto|].
    apply in_app_or in Hi as [Hi|Hi]; [auto|].
    apply in_app_or in Hi as [Hi|Hi]; [revert Hi; apply spaces_notop; auto|].
    apply (Hc c); [apply in_or_app; auto|exact X]. }
  unfold cond_expr. replace (is_nil (l ++ s1 ++ op ++ s2 ++ r)) with false
    by (destruct Hl as (l' & ->); reflexivity). cbn [negb guard bind].
  set (t := l ++ s1 ++ op ++ s2 ++ r) in *.
  assert (O1 : operator_char "!") by (left; reflexivity).
  assert (O2 : operator_char "=") by (right; left; reflexivity).
  assert (O3 : operator_char "<") by (right; right; left; reflexivity).
  assert (O4 : operator_char ">") by (right; right; right; reflexivity).
  unfold cond_ops. cbn [try_ops].
  Ltac miss c := rewrite (check_comparison_none _ _ _ c);
    [cbn [bind] | discriminate | cbn; tauto
    | match goal with N : forall c, operator_char c -> ~ In c _ -> _ |- _ => apply N end;
      [assumption | cbn; intuition discriminate]].
  Ltac hit := match goal with t := _ |- _ => subst t end;
    erewrite check_comparison_hit; [cbn [bind]; reflexivity | eassumption ..
      | match goal with N : forall c, operator_char c -> ~ In c (_ ++ _) |- _ => apply N; assumption end].
  cbv in Hop. destruct Hop as [<-|[<-|[<-|[<-|[<-|[<-|[]]]]]]].
  - hit.
  - miss "!"%char. hit.
  - miss "!"%char. miss ">"%char. hit.
  - miss "!"%char. miss ">"%char. miss "<"%char. hit.
  - miss "!"%char. miss "="%char. miss "="%char. miss "="%char. hit.
  - miss "!"%char. miss "="%char. miss "="%char. miss "="%char. miss ">"%char. hit.
Qed.
Lemma cond_single_roundtrip e op s r :
  (exists r', r = "$"%char :: r') -> (forall c, In c r -> ~ operator_char c) -> spaces s ->
  (op = [] /\ s = [] \/ op = ["!"%char]) ->
  cond_expr e (op ++ s ++ r) = Ok (CExpr [] op r).
Proof.
  intros (r' & ->) Hc Hs Hop.
  assert (O2 : operator_char "=") by (right; left; reflexivity).
  assert (O3 : operator_char "<") by (right; right; left; reflexivity).
  assert (O4 : operator_char ">") by (right; right; right; reflexivity).
  assert (Nall : forall c, operator_char c -> ~ In c op -> ~ In c (op ++ s ++ "$"%char :: r')).
  { intros c X Hn Hi. apply in_app_or in Hi as [Hi|Hi]; [auto|].
    apply in_app_or in Hi as [Hi|Hi]; [revert Hi; apply spaces_notop; auto|]. apply (Hc c); auto. }
  assert (No : forall c, c <> "!"%char -> ~ In c op).
  { intros c N Hi. destruct Hop as [[-> _]| ->]; [destruct Hi|]. destruct Hi as [Hi|[]]. congruence. }
  unfold cond_expr. replace (is_nil (op ++ s ++ "$"%char :: r')) with false
    by (destruct Hop as [[-> ->]| ->]; reflexivity). cbn [negb guard bind].
  unfold cond_ops. cbn [try_ops].
  assert (Q1 : check_comparison e (op ++ s ++ "$"%char :: r') (L "!=") = Ok None).
  { apply (check_comparison_none _ _ _ "="%char); [discriminate|cbn; tauto|].
    apply Nall; [assumption|apply No; discriminate]. }
  rewrite Q1. cbn [bind].
  rewrite (check_comparison_none _ _ (L ">=") ">"%char); [|discriminate|cbn; tauto|apply Nall; [assumption|apply No; discriminate]].
  rewrite (check_comparison_none _ _ (L "<=") "<"%char); [|discriminate|cbn; tauto|apply Nall; [assumption|apply No; discriminate]].
  rewrite (check_comparison_none _ _ (L "=") "="%char); [|discriminate|cbn; tauto|apply Nall; [assumption|apply No; discriminate]].
  rewrite (check_comparison_none _ _ (L ">") ">"%char); [|discriminate|cbn; tauto|apply Nall; [assumption|apply No; discriminate]].
  rewrite (check_comparison_none _ _ (L "<") "<"%char); [|discriminate|cbn; tauto|apply Nall; [assumption|apply No; discriminate]].
  cbn [bind]. destruct Hop as [[-> ->]| ->].
  - reflexivity.
  - cbn [app check_bool]. change (ch_eqb "!" c_sibling || ch_eqb "!" c_interface) with false.
    change (ch_eqb "!" "!") with true. cbn match.
    rewrite drop_while_spaces; [reflexivity|exact Hs|]. intros c t E. injection E as <- _. discriminate.
Qed.

From Verif.Spec Require Import FieldSpec.
Section NodeInd.
Variable P : node -> Prop.
Hypothesis HE : forall nm at_ ch, Forall P ch -> P (Elem nm at_ ch).
Hypothesis HT : forall t, P (TextNode t).
Hypothesis HO : P OtherNode.
Fixpoint node_ind' (n : node) : P n :=
  match n with
  | Elem nm a ch => HE nm a ch ((fix go (l : list node) : Forall P l :=
       match l with [] => Forall_nil P | x :: l' => Forall_cons x (node_ind' x) (go l') end) ch)
  | TextNode t => HT t
  | OtherNode => HO
  end.
End NodeInd.
Lemma cond_expr_wf e t c : cond_expr e t = Ok c -> well_formed_cond c.
Proof.
  unfold cond_expr. intros H. apply bind_Ok in H as (u & _ & H).
  apply try_ops_spec in H as (l & op & r & -> & H); [|apply ops_are_operators].
  destruct H as [(s1 & s2 & E & A & B & C & D & F & _)|(-> & [(-> & -> & D)|(-> & s & -> & A & D)])].
  - constructor; assumption.
  - apply wf_single; auto.
  - apply wf_single; auto.
Qed.
Lemma cond_list_wf e cs n : forall c, cond_list e cs n = Ok c -> well_formed_cond c.
Proof.
  induction n as [nm a ch IH| |] using node_ind'; intros c H; try discriminate.
  cbn [cond_list] in H. apply bind_Ok in H as (isAnd & H1 & H). apply bind_Ok in H as (l & H2 & H).
  apply bind_Ok in H as (u & H3 & H). injection H as <-. apply guard_Ok in H3.
  apply wf_list; [apply Nat.leb_le; exact H3|]. clear H1 H3 u nm a isAnd.
  revert l H2. induction ch as [|m ch IHch]; intros l H2; [injection H2 as <-; constructor|].
  inversion IH as [|m' ch' Hm Hch]; subst. destruct (is_elem m).
  - apply bind_Ok in H2 as (x & Hx & H2). apply bind_Ok in H2 as (xs & Hxs & H2). injection H2 as <-.
    constructor; [|apply (IHch Hch); exact Hxs].
    destruct (str_eqb (n_name m) cs).
    + apply bind_Ok in Hx as (s & _ & Hx). eapply cond_expr_wf; eauto.
    + destruct (str_eqb (n_name m) (L "and") || str_eqb (n_name m) (L "or")); [auto|discriminate].
  - apply (IHch Hch); exact H2.
Qed.
