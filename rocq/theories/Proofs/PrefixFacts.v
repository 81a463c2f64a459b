(** Code for lengths and counts that are the values of other fields. *)
From Coq Require Import Lia ZifyBool ZifyNat.
From Verif.Model Require Import Base Common Xml Units Field FieldCommon IntField OptCond GenUtil GenComms CommsInt CommsCond CommsPrefix.
From Verif.Spec Require Import Texts Ints FieldSpec GenSpec CppSpec TokenSpec CondCode CondTyping PrefixCode.
From Verif.Proofs Require Import BaseFacts CommonFacts IntFacts FieldInv GenFacts TemplateFacts CommsIntFacts CondCodeFacts CondTextFacts CondExprFacts CondMeanFacts TokenFacts.
From Verif.Proofs Require FactoryFacts.
Local Open Scope string_scope.
Local Open Scope Z_scope.
Local Open Scope list_scope.

(** ** Texts with holes *)
Fixpoint norm (cur : txt) (l : list piece) : list (txt * txt) * txt :=
  match l with
  | [] => ([], cur)
  | Text t :: l' => norm (cur ++ t) l'
  | Hole k :: l' => let (ps, e) := norm [] l' in ((cur, k) :: ps, e)
  end.
Fixpoint shape (h : txt -> txt) (ps : list (txt * txt)) (e : txt) : txt :=
  match ps with [] => e | (t, k) :: ps' => t ++ h k ++ shape h ps' e end.
Lemma norm_shape h l : forall cur, cur ++ substituted h l = shape h (fst (norm cur l)) (snd (norm cur l)).
Proof.
  induction l as [|[t|k] l IH]; intro cur; cbn [norm substituted].
  - cbn. apply app_nil_r.
  - rewrite <- IH. now rewrite app_assoc.
  - destruct (norm [] l) as [ps e] eqn:E. cbn [fst snd shape]. specialize (IH []). rewrite E in IH. cbn [fst snd app] in IH. now rewrite IH.
Qed.
Fixpoint sides (first : bool) (ps : list (txt * txt)) (e : txt) : bool :=
  match ps with
  | [] => first || starts e
  | (t, _) :: ps' => ends t && (first || (starts t && negb (is_nil t))) && sides false ps' e
  end.
Lemma sides_starts h ps e : sides false ps e = true -> starts (shape h ps e) = true.
Proof.
  destruct ps as [|[t k] ps]; cbn [sides shape]; [auto|]. intro H. apply andb_true_iff in H as [H _]. apply andb_true_iff in H as [_ H].
  cbn [orb] in H. apply andb_true_iff in H as [H N]. destruct t; [discriminate N|exact H].
Qed.
Lemma shape_tokens h ps e : forall first, sides first ps e = true ->
  tokens (shape h ps e) = concat (map (fun p => tokens (fst p) ++ tokens (h (snd p))) ps) ++ tokens e.
Proof.
  induction ps as [|[t k] ps IH]; intros first H; [reflexivity|]. cbn [shape map concat fst snd]. cbn [sides] in H.
  apply andb_true_iff in H as [H S]. apply andb_true_iff in H as [E _].
  rewrite tokens_l by exact E. rewrite (tokens_r (h k)) by (apply sides_starts; exact S). rewrite (IH _ S). now rewrite <- !app_assoc.
Qed.
Fixpoint texts_eqb (l l' : list txt) : bool :=
  match l, l' with [], [] => true | a :: l, b :: l' => str_eqb a b && texts_eqb l l' | _, _ => false end.
Lemma texts_eqb_eq l : forall l', texts_eqb l l' = true -> l = l'.
Proof.
  induction l as [|a l IH]; intros [|b l']; cbn; try discriminate; [reflexivity|]. intro H. apply andb_true_iff in H as [H1 H2].
  apply str_eqb_eq in H1. now rewrite H1, (IH _ H2).
Qed.
Fixpoint alike (ps ps' : list (txt * txt)) : bool :=
  match ps, ps' with
  | [], [] => true
  | (t, k) :: ps, (t', k') :: ps' => texts_eqb (tokens t) (tokens t') && str_eqb k k' && alike ps ps'
  | _, _ => false
  end.
Definition same_code (l l' : list piece) : bool :=
  let (ps, e) := norm [] l in let (ps', e') := norm [] l' in
  alike ps ps' && texts_eqb (tokens e) (tokens e') && sides true ps e && sides true ps' e'.
Lemma same_tokens h h' l l' : same_code l l' = true -> (forall k, tokens (h k) = tokens (h' k)) ->
  tokens (substituted h l) = tokens (substituted h' l').
Proof.
  unfold same_code. intros H Hh. pose proof (norm_shape h l []) as N. pose proof (norm_shape h' l' []) as N'. cbn [app] in N, N'. rewrite N, N'. clear N N'.
  destruct (norm [] l) as [ps e]. destruct (norm [] l') as [ps' e']. cbn [fst snd] in *.
  apply andb_true_iff in H as [H S']. apply andb_true_iff in H as [H S]. apply andb_true_iff in H as [A Ee]. apply texts_eqb_eq in Ee.
  rewrite (shape_tokens _ _ _ _ S), (shape_tokens _ _ _ _ S'), Ee. apply (f_equal (fun l => l ++ _)). apply (f_equal (@concat _)).
  clear - A Hh. revert ps' A. induction ps as [|[t k] ps IH]; intros [|[t' k'] ps']; cbn [alike map]; try discriminate; [reflexivity|].
  intro A. apply andb_true_iff in A as [A A2]. apply andb_true_iff in A as [A1 A3]. apply texts_eqb_eq in A1. apply str_eqb_eq in A3. subst k'.
  rewrite (IH _ A2). cbn [fst snd]. now rewrite A1, Hh.
Qed.
(** the texts of [hs] are the holes *)
Ltac pieces_of hs t :=
  let one a := match hs with
               | context [(?k, a)] => constr:(Hole k)
               | _ => constr:(Text a) end in
  lazymatch t with
  | ?a ++ ?r => let x := one a in let l := pieces_of hs r in constr:(x :: l)
  | ?a => let x := one a in constr:(x :: @nil piece)
  end.
Ltac same_holes hs :=
  rewrite <- ?app_assoc;
  match goal with |- tokens ?t = tokens ?t' =>
    let l := pieces_of hs t in let l' := pieces_of hs t' in
    let E := fresh in let E' := fresh in
    assert (t = substituted (fun k => lookup k hs) l) as E by (cbn [substituted]; rewrite ?app_nil_r; reflexivity);
    assert (t' = substituted (fun k => lookup k hs) l') as E' by (cbn [substituted]; rewrite ?app_nil_r; reflexivity);
    rewrite E, E'; apply same_tokens; [vm_compute; reflexivity|reflexivity] end.

(** ** Access *)
Lemma last_dot p r : ~ In "."%char r -> split_last_dot (p ++ "."%char :: r) = Some (p, r).
Proof.
  intro N. unfold split_last_dot. rewrite rev_app_distr. cbn [rev]. rewrite <- app_assoc. cbn [app].
  assert (split_at "." (rev r ++ "."%char :: rev p) = Some (rev r, rev p)) as ->.
  { apply (proj2 (CommonFacts.split_at_spec _ _ _ _)). split; [reflexivity|]. now rewrite <- in_rev. }
  now rewrite !rev_involutive.
Qed.
Lemma access_of a : split_last_dot (print_acc a ++ T ".getValue()") = Some (print_acc a, T "getValue()").
Proof. apply (last_dot (print_acc a) (T "getValue()")). vm_compute. intuition discriminate. Qed.
(** the object of a field, the checks in front of it and its value *)
Inductive located ge env (w : dval) (pres : bool) (up : list velem) (g : field) (rest : str) : Prop :=
| Located a cs bs : obj env a w -> Forall2 (fun c b => value env (XExists c) b) cs bs -> pres = all_true bs ->
  opt_checks ge up g rest (access_prefix g) = map exists_text cs ->
  value_access ge up g rest (access_prefix g) = print_acc a ++ T ".getValue()" ->
  field_access ge up g rest (access_prefix g) = Ok (print_acc a) ->
  located ge env w pres up g rest.
Lemma locate ge up sibs env path pres w : typed_env ge up sibs env -> accessible (VMembers env) ->
  from env path pres w -> Forall word path -> comparable w ->
  exists g rest, prefix_sibling sibs (join (T ".") path) = Some (g, rest) /\ located ge env w pres up g rest.
Proof.
  intros Te Ac F W C. pose (ce := mkCE ge (fun _ => None) []).
  destruct (resolve ce up sibs env path pres w [] Te Ac F W) as (o & E & R). rewrite app_nil_r in E.
  unfold find_operand in E. unfold prefix_sibling. destruct (first_seg (join (T ".") path)) as [first rest].
  destruct (find_named first sibs) as [g|]; [|discriminate]. cbn [option_map] in E |- *. injection E as <-.
  exists g, (rest_or_nil rest). split; [reflexivity|].
  destruct R as [va sa ca oc lf [f up' a cs bs T1 T2 W1 W2 T3 T4 T5 T6 T7 T8 T9 T10] E1 _ _ E4 _ _]. cbn [join] in *.
  assert (forall b n v, w <> VOptional b n v) as NO by (destruct w; try contradiction; discriminate).
  assert (own_present w = true) as Ow by (destruct w; try contradiction; reflexivity).
  rewrite (no_checks _ _ _ _ _ T1 T2 NO), app_nil_r in T9.
  assert (va = print_acc a ++ T ".getValue()") as Va.
  { rewrite T6. destruct w; try contradiction; destruct f; try contradiction; try reflexivity; exfalso; eapply T2; reflexivity. }
  cbn [op_field op_up op_acc op_iface ce_gen ce] in *. change (op_prefix (mkOp g up false (rest_or_nil rest))) with (access_prefix g) in *.
  subst va. apply Located with (a := a) (cs := cs) (bs := bs); auto.
  - rewrite T5, Ow. apply andb_true_r.
  - unfold op_checks in E4. cbn [op_up op_field op_acc] in E4. change (op_prefix (mkOp g up false (rest_or_nil rest))) with (access_prefix g) in E4. rewrite E4. exact T9.
  - now rewrite E1.
  - unfold field_access. rewrite E1, Va, access_of. reflexivity.
Qed.

(** ** Before reading *)
Definition pr_pieces := Eval vm_compute in match cut_template 20 prepare_templ with Some l => l | None => [] end.
Lemma pr_cut : cut_template 20 prepare_templ = Some pr_pieces. Proof. vm_compute. reflexivity. Qed.
Definition pc_pieces := Eval vm_compute in match cut_template 20 prepare_cond_templ with Some l => l | None => [] end.
Lemma pc_cut : cut_template 20 prepare_cond_templ = Some pc_pieces. Proof. vm_compute. reflexivity. Qed.
Definition functions := [T "forceReadLength"; T "forceReadElemCount"; T "forceReadElemLength"].

(** values of the keys *)
Ltac value_of k kv :=
  lazymatch kv with
  | (?k', ?v) :: ?r => let b := eval vm_compute in (str_eqb k k') in lazymatch b with true => v | false => value_of k r end
  end.
Ltac look := repeat match goal with |- context [lookup ?k ?kv] => let v := value_of k kv in change (lookup k kv) with v end.

Lemma prepare_code x a func : In func functions ->
  exists t, genProcessTemplate prepare_templ [(L "SEQ_FIELD", print_acc x); (L "FUNC", func); (L "ACC_VALUE", print_acc a ++ T ".getValue()")] false = Ok t /\
    tokens t = tokens (print_p (PCall x func a)).
Proof.
  intro If. match goal with |- exists t, genProcessTemplate _ ?kv _ = _ /\ _ => destruct (template_tokens 20 _ pr_pieces kv false pr_cut) as (t & E & Tt) end.
  exists t. split; [exact E|]. rewrite Tt. clear E Tt. unfold pr_pieces. cbn [substituted print_p].
  generalize (print_acc x) (print_acc a); intros p q. cbn [In functions] in If.
  destruct If as [<- | [<- | [<- | []]]]; look; same_holes [(T "P", p); (T "Q", q)].
Qed.
Lemma prepare_cond_code x a func e : In func functions ->
  exists t, genProcessTemplate prepare_cond_templ [(L "COND", print e); (L "SEQ_FIELD", print_acc x); (L "FUNC", func); (L "ACC_VALUE", print_acc a ++ T ".getValue()")] false = Ok t /\
    tokens t = tokens (print_p (PIf e (PCall x func a))).
Proof.
  intro If. match goal with |- exists t, genProcessTemplate _ ?kv _ = _ /\ _ => destruct (template_tokens 20 _ pc_pieces kv false pc_cut) as (t & E & Tt) end.
  exists t. split; [exact E|]. rewrite Tt. clear E Tt. unfold pc_pieces. cbn [substituted print_p].
  generalize (print_acc x) (print_acc a) (print e); intros p q r. cbn [In functions] in If.
  destruct If as [<- | [<- | [<- | []]]]; look; same_holes [(T "P", p); (T "Q", q); (T "R", r)].
Qed.
Lemma all_true_app l l' : all_true (l ++ l') = all_true l && all_true l'.
Proof. apply forallb_app. Qed.
Section Prepare.
Variables (ge : gen_env) (up : list velem) (sibs : list field) (env : list (txt * dval)) (f : field) (own : bool) (w : dval).
Hypothesis Te : typed_env ge up sibs env.
Hypothesis Ac : accessible (VMembers env).
Hypothesis Sw : sequence w.
Lemma prepare_one_code x cs bs s func said : obj env x w -> Forall2 (fun c b => value env (XExists c) b) cs bs -> own = all_true bs ->
  opt_checks ge up f [] (access_prefix f) = map exists_text cs -> field_access ge up f [] (access_prefix f) = Ok (print_acc x) ->
  In func functions -> informed env own (s, func) said ->
  exists ts ps css, prepare_one ge up sibs f s func = Ok ts /\ Forall2 (fun t p => tokens t = tokens (print_p p)) ts ps /\
    Forall2 (calls env) ps css /\ concat css = map (fun c => (x, fst c, snd c)) said.
Proof.
  intros Ox Fc Eo Ec Ex If In. inversion In as [fn|s' fn path pres ty names z (Es & Np & Wp) Fr]; subst s fn.
  - exists [], [], []. repeat split; auto.
  - subst s'. destruct (locate ge up sibs env path pres _ Te Ac Fr Wp I) as (g & rest & Eg & [a cs' bs' Oa Fc' Ep Ec' Ev Ea]).
    unfold prepare_one. assert (is_nil (join (T ".") path) = false) as ->.
    { destruct path as [|n q]; [congruence|]. inversion Wp; subst. now apply word_join. }
    rewrite Eg, Ec, Ec', Ex, Ev. cbn [bind]. rewrite <- map_app.
    assert (Forall2 (fun c b => value env (XExists c) b) (cs ++ cs') (bs ++ bs')) as F by (now apply Forall2_app).
    assert (own && pres = all_true (bs ++ bs')) as B by (rewrite all_true_app; congruence). rewrite B.
    assert (calls env (PCall x func a) [(x, func, z mod 2 ^ 64)]) as C by (econstructor; eauto).
    destruct (cs ++ cs') as [|c l] eqn:Ecs.
    + inversion F as [Q|]. cbn [map is_nil all_true forallb]. destruct (prepare_code x a func If) as (t & Et & Tt). rewrite Et. cbn [bind].
      exists [t], [PCall x func a], [[(x, func, z mod 2 ^ 64)]]. repeat split; auto.
    + cbn [is_nil map]. pose (e := XAll true (map XExists (c :: l))).
      assert (genStrListToString (exists_text c :: map exists_text l) and_nl [] = print e) as ->.
      { rewrite list_join. unfold e. cbn [print]. rewrite map_map. reflexivity. }
      assert (value env e (all_true (bs ++ bs'))) as V.
      { unfold e. apply value_all; [|discriminate|].
        - clear - F. induction F; cbn [map]; constructor; auto.
        - apply Forall_forall. intros y I0. apply in_map_iff in I0 as (y' & <- & _). exact I. }
      destruct (prepare_cond_code x a func e If) as (t & Et & Tt). rewrite Et. cbn [bind].
      destruct (all_true (bs ++ bs')).
      * exists [t], [PIf e (PCall x func a)], [[(x, func, z mod 2 ^ 64)]]. repeat split; auto. constructor; [|constructor]. now apply calls_if.
      * exists [t], [PIf e (PCall x func a)], [[]]. repeat split; auto. constructor; [|constructor]. now apply calls_skip.
Qed.
Lemma prepare_body_code saids : find_named (f_name f) sibs = Some f -> word (f_name f) -> from env [f_name f] own w ->
  Forall2 (informed env own) (prefixes f) saids ->
  exists out x prog, prepare_body ge up sibs f = Ok out /\ obj env x w /\ tokens out = tokens (print_ps prog) /\
    calls_all env prog (map (fun c => (x, fst c, snd c)) (concat saids)).
Proof.
  intros Ff Wf Fr Fi. assert (comparable w) as Cw by (destruct w; try contradiction; exact I).
  destruct (locate ge up sibs env _ _ _ Te Ac Fr ltac:(constructor; [exact Wf|constructor]) Cw) as (g & rest & Eg & [x cs bs Ox Fc Ep Ec Ev Ex]).
  unfold prefix_sibling in Eg. cbn [join] in Eg. rewrite <- (app_nil_r (f_name f)) in Eg.
  assert (first_seg (f_name f ++ []) = (f_name f, None)) as E1.
  { destruct (first_seg (f_name f ++ [])) as [u v] eqn:E. pose proof (word_seg (f_name f) [] Wf) as X. cbn [join] in X. rewrite app_nil_r in E. congruence. }
  rewrite E1, Ff in Eg. cbn [option_map rest_or_nil] in Eg. injection Eg as <- <-.
  assert (P1 : forall s func said, In func functions -> informed env own (s, func) said ->
    exists ts ps css, prepare_one ge up sibs f s func = Ok ts /\ Forall2 (fun t p => tokens t = tokens (print_p p)) ts ps /\
    Forall2 (calls env) ps css /\ concat css = map (fun c => (x, fst c, snd c)) said) by (intros; eapply prepare_one_code; eauto).
  assert (forall ts ps, Forall2 (fun t p => tokens t = tokens (print_p p)) ts ps -> flat_map tokens ts = tokens (print_ps ps)) as TP.
  { intros ts ps F. unfold print_ps. rewrite tokens_join. induction F; cbn [flat_map map]; [reflexivity|]. congruence. }
  assert (S1 : forall s func said, In func functions -> informed env own (s, func) said ->
    exists out prog, (l <- prepare_one ge up sibs f s func ;; Ok (concat l)) = Ok out /\ tokens out = tokens (print_ps prog) /\
      calls_all env prog (map (fun c => (x, fst c, snd c)) said)).
  { intros s func said If In. destruct (P1 s func said If In) as (ts & ps & css & E & F & G & H). rewrite E. cbn [bind].
    exists (concat ts), ps. split; [reflexivity|]. split; [|exists css; auto]. rewrite <- (TP _ _ F).
    unfold prepare_one in E. destruct (is_nil s); [injection E as <-; reflexivity|]. destruct (prefix_sibling sibs s) as [[g' r']|]; [|injection E as <-; reflexivity].
    apply bind_Ok in E as (? & _ & E). apply bind_Ok in E as (t & _ & E). apply Ok_inj in E. subst ts. cbn [concat flat_map]. now rewrite !app_nil_r. }
  destruct f; cbn [prefixes prepare_body] in *.
  all: try (inversion Fi; subst; exists [], x, []; repeat split; auto; exists []; auto; fail).
  - inversion Fi as [|? said ? ? I1 I2]; subst. inversion I2; subst. destruct (S1 _ _ _ ltac:(cbn; tauto) I1) as (out & prog & A & B & C).
    exists out, x, prog. cbn [concat]. rewrite app_nil_r. auto.
  - inversion Fi as [|? said ? ? I1 I2]; subst. inversion I2; subst. destruct (S1 _ _ _ ltac:(cbn; tauto) I1) as (out & prog & A & B & C).
    exists out, x, prog. cbn [concat]. rewrite app_nil_r. auto.
  - inversion Fi as [|? s1 ? ? I1 Fi1]; subst. inversion Fi1 as [|? s2 ? ? I2 Fi2]; subst. inversion Fi2 as [|? s3 ? ? I3 Fi3]; subst. inversion Fi3; subst.
    destruct (P1 _ (T "forceReadElemCount") _ ltac:(cbn; tauto) I1) as (t1 & p1 & c1 & E1' & F1 & G1 & H1).
    destruct (P1 _ (T "forceReadLength") _ ltac:(cbn; tauto) I2) as (t2 & p2 & c2 & E2' & F2 & G2 & H2).
    destruct (P1 _ (T "forceReadElemLength") _ ltac:(cbn; tauto) I3) as (t3 & p3 & c3 & E3' & F3 & G3 & H3).
    change L with T. rewrite E1'. cbn [bind]. rewrite E2'. cbn [bind]. rewrite E3'. cbn [bind].
    eexists. exists x, (p1 ++ p2 ++ p3). split; [reflexivity|]. split; [exact Ox|]. split.
    + rewrite FactoryFacts.list_tokens. apply TP. auto using Forall2_app.
    + exists (c1 ++ c2 ++ c3). split; [auto using Forall2_app|]. rewrite !concat_app, H1, H2, H3. cbn [concat]. rewrite app_nil_r, !map_app. reflexivity.
Qed.
End Prepare.

(** ** The functions *)
Definition len_code (a x : acc) : list istmt :=
  [SAuto (T "auto") (T "lenValue") (IGet a); SAuto (T "auto") (T "realLength") (ISize x);
   SIf (BEq (ICast (IVar (T "lenValue"))) (IVar (T "realLength"))) [SReturn false];
   SUsing (T "LenValueType") (IVar (T "lenValue"));
   SAuto (T "static const auto") (T "MaxLenValue") (ICast (IMax (T "LenValueType")));
   SAuto (T "auto") (T "maxAllowedLen") (IMin (T "MaxLenValue") (T "realLength"));
   SSet a (T "maxAllowedLen");
   SIf (BLess (T "maxAllowedLen") (T "realLength")) [SResize x (T "maxAllowedLen")];
   SReturn true].
Definition real_code (k : prefix_kind) (x : acc) : istmt :=
  match k with
  | PCount => SAuto (T "auto") (T "realValue") (ISize x)
  | PLength => SAuto (T "auto") (T "realValue") (ILength x)
  | PElemLength => SAuto (T "std::size_t") (T "realValue") (IFirst x)
  end.
Definition pop_code (x : acc) : list istmt :=
  [SAuto (T "auto") (T "elemLen") (IBack x); SPop x; SMinus (T "realValue") (T "elemLen")].
Definition adjust_code (k : prefix_kind) (x : acc) : istmt :=
  match k with
  | PCount => SIf (BLess (T "maxAllowedValue") (T "realValue")) [SResize x (T "maxAllowedValue")]
  | PLength => SWhile (BLess (T "maxAllowedValue") (T "realValue")) (pop_code x)
  | PElemLength => SAssert (BFirstLess x (T "maxAllowedValue"))
  end.
Definition block_code (k : prefix_kind) (a x : acc) : istmt :=
  SDoOnce
    [SAuto (T "auto") (T "expectedValue") (ICast (IGet a));
     real_code k x;
     SIf (BEq (IVar (T "expectedValue")) (IVar (T "realValue"))) [SBreak];
     SUsing (T "PrefixValueType") (IGet a);
     SAuto (T "static const auto") (T "MaxPrefixValue") (ICast (IMax (T "PrefixValueType")));
     SAuto (T "auto") (T "maxAllowedValue") (IMin (T "MaxPrefixValue") (T "realValue"));
     adjust_code k x;
     SSet a (prefix_value k);
     SFlag [] (T "updated") true].
Definition list_code (blocks : list istmt) : list istmt :=
  SFlag (T "bool") (T "updated") false :: blocks ++ [SReturnVar (T "updated")].

Definition rf_pieces := Eval vm_compute in match cut_template 20 refresh_templ with Some l => l | None => [] end.
Lemma rf_cut : cut_template 20 refresh_templ = Some rf_pieces. Proof. vm_compute. reflexivity. Qed.
Lemma len_tokens a x :
  exists t, genProcessTemplate refresh_templ [(L "LEN_VALUE", print_acc a ++ T ".getValue()"); (L "LEN_FIELD", print_acc a); (L "SEQ_FIELD", print_acc x)] false = Ok t /\
    tokens t = tokens (print_code (len_code a x)).
Proof.
  match goal with |- exists t, genProcessTemplate _ ?kv _ = _ /\ _ => destruct (template_tokens 20 _ rf_pieces kv false rf_cut) as (t & E & Tt) end.
  exists t. split; [exact E|]. rewrite Tt. clear E Tt. unfold rf_pieces, len_code. cbn [substituted print_code print_s print_i print_b bool_lit].
  generalize (print_acc x) (print_acc a); intros p q. look. same_holes [(T "P", p); (T "Q", q)].
Qed.

Definition rk_pieces (k : prefix_kind) := Eval vm_compute in
  match k with
  | PCount => match cut_template 20 (real_templ PCount) with Some l => l | None => [] end
  | PLength => match cut_template 20 (real_templ PLength) with Some l => l | None => [] end
  | PElemLength => match cut_template 20 (real_templ PElemLength) with Some l => l | None => [] end
  end.
Lemma rk_cut k : cut_template 20 (real_templ k) = Some (rk_pieces k). Proof. destruct k; vm_compute; reflexivity. Qed.
Definition ak_pieces (k : prefix_kind) := Eval vm_compute in
  match k with
  | PCount => match cut_template 20 (adjust_templ PCount) with Some l => l | None => [] end
  | PLength => match cut_template 20 (adjust_templ PLength) with Some l => l | None => [] end
  | PElemLength => match cut_template 20 (adjust_templ PElemLength) with Some l => l | None => [] end
  end.
Lemma ak_cut k : cut_template 20 (adjust_templ k) = Some (ak_pieces k). Proof. destruct k; vm_compute; reflexivity. Qed.
Definition rb_pieces := Eval vm_compute in match cut_template 20 refresh_block_templ with Some l => l | None => [] end.
Lemma rb_cut : cut_template 20 refresh_block_templ = Some rb_pieces. Proof. vm_compute. reflexivity. Qed.
Definition rl_pieces := Eval vm_compute in match cut_template 20 refresh_list_templ with Some l => l | None => [] end.
Lemma rl_cut : cut_template 20 refresh_list_templ = Some rl_pieces. Proof. vm_compute. reflexivity. Qed.
Lemma block_tokens k a x :
  exists r d t, genProcessTemplate (real_templ k) [(L "LIST_FIELD", print_acc x)] false = Ok r /\
    genProcessTemplate (adjust_templ k) [(L "LIST_FIELD", print_acc x)] false = Ok d /\
    genProcessTemplate refresh_block_templ [(L "ACC_VALUE", print_acc a ++ T ".getValue()"); (L "ACC_FIELD", print_acc a);
                (L "REAL_VALUE", r); (L "ADJUST_LIST", d); (L "PREFIX_VALUE", prefix_value k)] false = Ok t /\
    tokens t = tokens (print_s (block_code k a x)).
Proof.
  destruct (template_tokens 20 _ _ [(L "LIST_FIELD", print_acc x)] false (rk_cut k)) as (r & Er & Tr).
  destruct (template_tokens 20 _ _ [(L "LIST_FIELD", print_acc x)] false (ak_cut k)) as (d & Ed & Td).
  destruct (template_tokens 20 _ rb_pieces [(L "ACC_VALUE", print_acc a ++ T ".getValue()"); (L "ACC_FIELD", print_acc a);
                (L "REAL_VALUE", r); (L "ADJUST_LIST", d); (L "PREFIX_VALUE", prefix_value k)] false rb_cut) as (t & E & Tt).
  exists r, d, t. repeat (split; [assumption|]). rewrite Tt. clear Er Ed E Tt.
  match goal with |- tokens (substituted (fun k0 => lookup k0 [?v1; ?v2; _; _; ?v5]) _) = _ =>
    rewrite (same_tokens _ (fun k0 => lookup k0 [v1; v2;
      (L "REAL_VALUE", substituted (fun k1 => lookup k1 [(L "LIST_FIELD", print_acc x)]) (rk_pieces k));
      (L "ADJUST_LIST", substituted (fun k1 => lookup k1 [(L "LIST_FIELD", print_acc x)]) (ak_pieces k)); v5]) rb_pieces rb_pieces) end;
    [|vm_compute; reflexivity|].
  - clear Tr Td. unfold block_code. destruct k; unfold real_code, adjust_code, pop_code, prefix_value, rk_pieces, ak_pieces, rb_pieces;
    cbn [substituted print_code print_s print_i print_b bool_lit];
    generalize (print_acc x) (print_acc a); intros p q; look; same_holes [(T "P", p); (T "Q", q)].
  - intro k0. cbn [lookup]. repeat match goal with |- context [if ?c then _ else _] => destruct c end; auto.
Qed.
