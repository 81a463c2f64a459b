(** The generated expressions have the value of the condition. *)
From Coq Require Import Lia.
From Verif.Model Require Import Base Common Xml Units Field FieldCommon IntField OptCond GenUtil GenComms CommsInt CommsCond.
From Verif.Spec Require Import Texts Ints FieldSpec GenSpec CppSpec CondCode CondTyping.
From Verif.Proofs Require Import BaseFacts CommonFacts IntFacts FieldInv GenFacts TemplateFacts GroundFacts CommsIntFacts CondCodeFacts CondTextFacts CondExprFacts.
From Verif.Props Require PTemplate.
Local Open Scope string_scope.
Local Open Scope Z_scope.
Local Open Scope list_scope.

Definition says env (r : res str) (b : bool) : Prop :=
  exists t e, r = Ok t /\ lay t (print e) /\ value env e b.

Lemma word_flat x : word x -> flat x.
Proof. intros [_ F] I. rewrite Forall_forall in F. destruct (F _ I) as [H | H]; vm_compute in H; intuition discriminate. Qed.
Lemma flat_app a b : flat a -> flat b -> flat (a ++ b).
Proof. intros A B I. apply in_app_or in I as [I | I]; [exact (A I)|exact (B I)]. Qed.
Ltac flat_lit := unfold flat; vm_compute; intuition discriminate.
Lemma acc_flat a : acc_words a -> flat (print_acc a).
Proof.
  induction a as [x|a IH x|a IH]; cbn [acc_words print_acc]; intro W.
  - apply flat_app; [flat_lit|]. apply flat_app; [now apply word_flat|flat_lit].
  - destruct W. apply flat_app; [auto|]. apply flat_app; [flat_lit|]. apply flat_app; [now apply word_flat|flat_lit].
  - apply flat_app; [auto|flat_lit].
Qed.
Lemma class_flat a : acc_words a -> flat (print_class a).
Proof.
  induction a as [x|a IH x|a IH]; cbn [acc_words print_class]; intro W.
  - apply flat_app; [flat_lit|now apply word_flat].
  - destruct W. apply flat_app; [auto|]. apply flat_app; [flat_lit|now apply word_flat].
  - apply flat_app; [auto|flat_lit].
Qed.
Lemma starts_lay t : starts_f t -> flat t -> lay t t.
Proof. intros (r & [-> | ->]) F; apply lay_flat; auto; discriminate. Qed.
Lemma acc_lay a s : acc_words a -> flat s -> lay (print_acc a ++ s) (print_acc a ++ s).
Proof. intros W F. apply starts_lay; [apply acc_starts|]. apply flat_app; [now apply acc_flat|exact F]. Qed.
Definition exists_text (c : acc) : txt := print (XExists c).
Lemma checks_lay cs : Forall acc_words cs -> Forall2 lay (map exists_text cs) (map exists_text cs).
Proof. intro F. induction F; cbn [map]; constructor; auto. apply acc_lay; [assumption|flat_lit]. Qed.

Lemma checks_value env cs bs e b : Forall2 (fun c b => value env (XExists c) b) cs bs -> value env e b -> no_list e ->
  value env (XAll true (map XExists cs ++ [e])) (all_true bs && b).
Proof.
  intros F V N. replace (all_true bs && b) with (forallb (fun b => b) (bs ++ [b])) by (rewrite forallb_app; cbn; now rewrite andb_true_r).
  constructor.
  - apply Forall2_app; [|auto]. induction F; cbn; auto.
  - intro E. apply app_eq_nil in E as [_ E]. discriminate.
  - apply Forall_app. split; [|auto]. clear. induction cs; cbn; constructor; auto. exact I.
Qed.
Lemma with_checks_says env cs bs expr e b : Forall acc_words cs -> Forall2 (fun c b => value env (XExists c) b) cs bs ->
  lay expr (print e) -> value env e b -> says env (with_checks (map exists_text cs) expr) (all_true bs && b).
Proof.
  intros W F L V. destruct (with_checks_lay _ _ _ _ (checks_lay cs W) L) as (t & E & Lt).
  destruct cs as [|c cs].
  - inversion F; subst. exists t, e. auto.
  - exists t, (XAll true (map XExists (c :: cs) ++ [XParen e])). split; [exact E|]. split.
    + cbn [map] in Lt. change (print (XAll true (map XExists (c :: cs) ++ [XParen e]))) with
        (join (sep true) (map print (map XExists (c :: cs) ++ [XParen e]))).
      rewrite map_app, map_map. exact Lt.
    + apply checks_value; auto; [|exact I]. now constructor.
Qed.
Lemma no_checks ge up f w a : tbody ge up f w -> (forall c b t, f <> FRef c b t) -> (forall b n v, w <> VOptional b n v) ->
  obody ge up f [] a = [].
Proof.
  intros T1 T2 T3. destruct f; try reflexivity; [exfalso; eapply T2; reflexivity|].
  exfalso. destruct w; try contradiction. eapply T3; reflexivity.
Qed.
Lemma cpp_written op o : written dsl_ops op o -> written cpp_ops (cpp_op op) o /\ flat (cpp_op op) /\
  (str_eqb (cpp_op op) (T "==") = true -> o = REq) /\ (str_eqb (cpp_op op) (T "!=") = true -> o = RNe).
Proof.
  unfold written, dsl_ops, cpp_ops. cbn [In].
  intros H. repeat (destruct H as [H | H]; [apply pair_equal_spec in H as [<- <-];
    (split; [vm_compute; tauto|split; [flat_lit|split; intro X; vm_compute in X; try discriminate X; reflexivity]])|]). destruct H.
Qed.

(** a leaf that is compared *)
Definition comparable (w : dval) : Prop := match w with VNum _ _ _ | VText _ | VSeq _ => True | _ => False end.
Definition cast_ok (ce : cond_env) (w : dval) (o : operand) (a : acc) : Prop :=
  let ty := cast_type (ce_gen ce) (op_up o) (op_field o) (op_acc o) [] in
  match w with
  | VText _ => ty = []
  | VNum _ _ _ => is_nil ty = false /\ op_type_prefix o ++ T "::" ++ ty = print_class a ++ T "::ValueType"
  | _ => True
  end.
Definition size_ok (ce : cond_env) (w : dval) (o : operand) (a : acc) : Prop :=
  match w with
  | VNum _ _ _ => True
  | _ => op_prefix o ++ size_access (ce_gen ce) (op_up o) (op_field o) (op_acc o) [] = print_acc a ++ T ".getValue().size()"
  end.
Inductive leaf_ok ce env (w : dval) (pres : bool) (o : operand) : Prop :=
| Leaf f up a cs bs : tbody (ce_gen ce) up f w -> (forall c b t, f <> FRef c b t) -> acc_words a -> Forall acc_words cs ->
  obj env a w -> Forall2 (fun c b => value env (XExists c) b) cs bs -> pres = all_true bs ->
  op_checks (ce_gen ce) o = map exists_text cs ->
  acc_leaf (op_field o) (op_acc o) = Some f ->
  op_value (ce_gen ce) o = print_acc a ++ T ".getValue()" ->
  size_ok ce w o a -> cast_ok ce w o a ->
  op_type_prefix o = T "Field_" ++ genAccessName (f_name (op_field o)) ->
  leaf_ok ce env w pres o.
Lemma ends_differ p q : p ++ T "::" = q ++ T "::ValueType" -> False.
Proof.
  change (T "::") with (T ":" ++ [":"%char]). change (T "::ValueType") with (T "::ValueTyp" ++ ["e"%char]). rewrite !app_assoc.
  intro E. apply app_inj_tail in E as [_ E]. discriminate.
Qed.
Lemma resolved_leaf ce env w pres o : resolved ce env w pres [] o -> comparable w -> leaf_ok ce env w pres o.
Proof.
  intros [va sa ca oc lf [f up a cs bs T1 T2 W1 W2 T3 T4 T5 T6 T7 T8 T9 T10] E1 E2 E3 E4 E5 E6] Cw.
  cbn [join] in *.
  assert (forall b n v, w <> VOptional b n v) as NO by (destruct w; try contradiction; discriminate).
  assert (own_present w = true) as Ow by (destruct w; try contradiction; reflexivity).
  rewrite (no_checks _ _ _ _ _ T1 T2 NO), app_nil_r in T9.
  assert (va = print_acc a ++ T ".getValue()") as Va.
  { rewrite T6. destruct w; try contradiction; destruct f; try contradiction; try reflexivity; exfalso; eapply T2; reflexivity. }
  assert (lf = Some f) as Lf.
  { rewrite T10. destruct w; try contradiction; destruct f; try contradiction; try reflexivity; exfalso; eapply T2; reflexivity. }
  apply Leaf with (f := f) (up := up) (a := a) (cs := cs) (bs := bs); auto.
  - rewrite T5, Ow. apply andb_true_r.
  - rewrite E4. exact T9.
  - rewrite E5. exact Lf.
  - unfold op_value. apply (hom_use (value_access (ce_gen ce) (op_up o) (op_field o) (op_acc o))); [apply value_hom| |apply acc_starts].
    now rewrite E1.
  - destruct w; try contradiction; [exact I| |]; (apply (hom_use (size_access (ce_gen ce) (op_up o) (op_field o) (op_acc o)));
      [apply size_hom|rewrite E2, T7; destruct f; try contradiction; try reflexivity; exfalso; eapply T2; reflexivity|apply acc_starts]).
  - destruct w; try contradiction; cbn [cast_ok]; [| |exact I].
    + assert (ca = print_class a ++ T "::ValueType") as Ca.
      { rewrite T8. destruct f; try contradiction; cbn [cbody]; rewrite <- ?app_assoc; try reflexivity; exfalso; eapply T2; reflexivity. }
      pose proof (hom_use (cast_type (ce_gen ce) (op_up o) (op_field o) (op_acc o)) (op_type_prefix o ++ T "::") ca
        (cast_hom _ _ _ _) E3 ltac:(rewrite Ca; apply class_starts)) as H.
      rewrite <- app_assoc in H. split; [|rewrite H; exact Ca].
      destruct (cast_hom (ce_gen ce) (op_field o) (op_up o) (op_acc o)) as [(x & X) | [X | X]].
      * rewrite X in *. rewrite Ca in E3. destruct x as [|c x]; [|reflexivity]. exfalso. rewrite app_nil_r in E3.
        exact (ends_differ _ _ E3).
      * rewrite X. reflexivity.
      * rewrite X in E3. rewrite Ca in E3. destruct (class_starts a (T "::ValueType")) as (r & [Q | Q]); rewrite Q in E3; discriminate.
    + destruct (cast_hom (ce_gen ce) (op_field o) (op_up o) (op_acc o)) as [(x & X) | [X | X]].
      * exfalso. rewrite X in E3. rewrite T8 in E3. destruct f; try contradiction; [|exfalso; eapply T2; reflexivity].
        cbn [cbody] in E3. rewrite E6 in E3. discriminate.
      * exfalso. rewrite X in E3. rewrite T8 in E3. destruct f; try contradiction; [|exfalso; eapply T2; reflexivity]. discriminate E3.
      * apply X.
Qed.

(** ** size() *)
Fixpoint dots_ok (s : txt) : bool :=
  match s with
  | [] => true
  | c :: r => (if ch_eqb c "." then match r with d :: _ => negb (ch_eqb d "s") | [] => false end else true) && dots_ok r
  end.
Lemma dots_word x y : word x -> dots_ok (x ++ y) = dots_ok y.
Proof.
  intros [_ F]. induction F as [|c x H F IH]; [reflexivity|]. cbn [app dots_ok].
  rewrite (word_char_neqb c H "."%char) by (vm_compute; tauto). cbn [andb]. exact IH.
Qed.
Lemma dots_acc a y : acc_words a -> dots_ok y = true -> dots_ok (print_acc a ++ y) = true.
Proof.
  revert y. induction a as [x|a IH x|a IH]; cbn [acc_words print_acc]; intros y W D; rewrite <- ?app_assoc.
  - change (T "field_" ++ x ++ T "()" ++ y) with ("f"%char :: "i"%char :: "e"%char :: "l"%char :: "d"%char :: "_"%char :: (x ++ T "()" ++ y)).
    cbn [dots_ok]. change (dots_ok (x ++ T "()" ++ y) = true). rewrite dots_word by exact W. exact D.
  - destruct W as [Wa Wx]. apply IH; [exact Wa|].
    change (dots_ok (x ++ T "()" ++ y) = true). rewrite dots_word by exact Wx. exact D.
  - apply IH; [exact W|]. exact D.
Qed.
Lemma dots_split b c r : dots_ok (b ++ "."%char :: c :: r) = true -> c <> "s"%char.
Proof.
  induction b as [|x b IH]; cbn [app dots_ok].
  - intros H ->. discriminate H.
  - intro H. apply andb_true_iff in H as [_ H]. apply IH. exact H.
Qed.
Lemma size_pieces x : dots_ok (x ++ T ")") = true ->
  pieces (T ".size()") ((x ++ T ")") ++ T ".size()") [x ++ T ")"; []].
Proof.
  intro D. rewrite <- (app_nil_r (T ".size()")) at 2. constructor.
  - intros b c E. rewrite app_nil_r in E. destruct (Nat.le_gt_cases (length (x ++ T ")")) (length b)) as [|G]; [assumption|exfalso].
    assert (exists w, x ++ T ")" = b ++ "."%char :: w) as (w & Ew).
    { apply app_eq_app in E as (l & [[E1 E2] | [E1 E2]]).
      - destruct l as [|d l].
        + rewrite app_nil_r in E1. rewrite E1 in G. lia.
        + injection E2 as <- E2. eauto.
      - apply (f_equal (@length _)) in E1. rewrite app_length in E1. lia. }
    rewrite Ew in E, D. rewrite <- app_assoc in E. apply app_inv_head in E. cbn [app] in E. injection E as E.
    destruct w as [|d w].
    + change (b ++ ["."%char]) with (b ++ ["."%char]) in Ew. apply app_inj_tail in Ew as [_ Ew]. discriminate.
    + injection E as -> _. eapply dots_split; [exact D|reflexivity].
  - constructor. intros (a & b & E). apply (f_equal (@length _)) in E. rewrite !app_length in E. cbn in E. lia.
Qed.
Lemma size_empty a : acc_words a ->
  genStrReplace (print_acc a ++ T ".getValue().size()") (L ".size()") (L ".empty()") = Ok (print_acc a ++ T ".getValue().empty()").
Proof.
  intro W. change (T ".getValue().size()") with (T ".getValue(" ++ T ")" ++ T ".size()"). rewrite !app_assoc.
  rewrite (replace_spec _ _ _ [(print_acc a ++ T ".getValue(") ++ T ")"; []]); [|discriminate|].
  - cbn [join]. rewrite app_nil_r. rewrite <- !app_assoc. reflexivity.
  - apply size_pieces. rewrite <- app_assoc. apply dots_acc; [exact W|reflexivity].
Qed.
Lemma dec_constant r k : numeral 10 r k -> (hd_error r = Some "0"%char -> r = T "0") -> k < 2 ^ 63 -> constant r k /\ 0 <= k.
Proof.
  intros N Z K. assert (0 <= k) as K0.
  { clear - N. induction N as [c v D|ds c n v N IH D]; destruct D; lia. }
  split; [|exact K0]. rewrite <- (app_nil_r r).
  assert (exists t, first_type k [TInt; TLong; TLongLong] t) as (t & Ft).
  { destruct (Z_lt_ge_dec k (2 ^ 31)).
    - exists TInt. constructor. unfold ctype_holds. cbn. lia.
    - exists TLong. apply first_next; [unfold ctype_holds; cbn; lia|]. constructor. unfold ctype_holds. cbn. lia. }
  apply const_lit with (t := t). eapply cpp_dec; eauto. left. auto.
Qed.
Lemma numeral_head r k : numeral 10 r k -> exists c s, r = c :: s /\ c <> "$"%char /\ c <> "%"%char.
Proof.
  intro N. pose proof (numeral_chars _ _ _ N) as F. destruct r as [|c s]; [inversion N; destruct ds; discriminate|].
  inversion F as [|? ? H _]; subst. exists c, s. split; [reflexivity|]. split; intros ->; vm_compute in H; intuition discriminate.
Qed.

Lemma through_checks ge f : forall up v path p, typed ge up f v -> through_optional v path -> Forall word path ->
  opt_checks ge up f (join (T ".") path) p <> [].
Proof.
  induction f as [f IH] using field_ind'. intros up v path p Ty Th Wp. rewrite checks_eq. rewrite typed_eq in Ty.
  destruct (version_optional ge up f); [discriminate|]. cbn [app]. set (pre := p ++ vo ge up f (L ".field()")). clearbody pre.
  rewrite Forall_forall in IH. clear p.
  assert (forall c b t, f = FRef c b t -> obody ge up f (join (T ".") path) pre <> []) as HR.
  { intros c b t ->. cbn [tbody obody] in *. eapply IH; eauto. now left. }
  assert (forall ms vs, v = VMembers vs -> typed_members ge (velem_of f :: up) ms vs -> parts f = ms ->
    (forall acc, is_nil acc = false -> obody ge up f acc pre = step (opt_checks ge) [] ge up f acc pre (L ".field_") (L "()") ms) ->
    obody ge up f (join (T ".") path) pre <> []) as HM.
  { intros ms vs -> Tm Ep HB. inversion Th as [| | |? n v' q Fn Th']; subst. inversion Wp as [|? ? Wn Wq]; subst.
    rewrite HB by (now apply word_join). unfold step. rewrite word_seg by exact Wn.
    destruct (first_find _ _ _ _ _ _ Tm Fn) as (m & Fm & Im & _ & Tv). rewrite Fm, rest_join. eapply IH; eauto. }
  destruct f; try (eapply HR; reflexivity); try (destruct v; try contradiction; inversion Th; fail).
  - destruct v as [| | | |vs| | |]; try contradiction. eapply HM; eauto. intros acc Na. cbn [obody]. now rewrite Na.
  - destruct v as [| | | |vs| | |]; try contradiction. eapply HM; eauto. intros acc Na. cbn [obody]. now rewrite Na.
  - discriminate.
Qed.

(** ** The expressions *)
Section Expr.
Variables (ce : cond_env) (up : list velem) (sibs : list field) (env : list (txt * dval)).
Hypothesis Te : typed_env (ce_gen ce) up sibs env.
Hypothesis Ac : accessible (VMembers env).

Lemma refers_value s path tail : refers s [] (path ++ tail) -> path <> [] ->
  operand_info s = (OSibling, MNone, join (T ".") (path ++ tail)) /\ Forall word path /\ Forall word tail.
Proof.
  intros (-> & _ & F) N. cbn [app]. apply Forall_app in F as [F1 F2]. split; [apply info_value; auto|auto].
Qed.
Lemma refers_ref s path : refers s [] path -> operand_info s = (OSibling, MNone, join (T ".") path) /\ Forall word path /\ path <> [].
Proof.
  intros (-> & N & F). cbn [app]. rewrite <- (app_nil_r path) at 1 2. rewrite info_value by auto. auto.
Qed.
Lemma resolve0 path pres w : from env path pres w -> Forall word path ->
  exists o, find_operand ce up sibs OSibling (join (T ".") path) = Some o /\ resolved ce env w pres [] o.
Proof. intros F W. destruct (resolve ce up sibs env path pres w [] Te Ac F W) as (o & E & R). rewrite app_nil_r in E. eauto. Qed.

Lemma expr_num l op r path pres ty names z n o : refers l [] path -> from env path pres (VNum ty names z) ->
  number_text names r n -> suits ty r n -> written dsl_ops op o ->
  says env (cond_expr_text ce up sibs l op r) (pres && num_holds o z n).
Proof.
  intros Rl Fl Nt Su Wo. destruct (refers_ref _ _ Rl) as (Il & Wp & _).
  destruct (resolve0 _ _ _ Fl Wp) as (x & Fx & Rx). pose proof (resolved_leaf _ _ _ _ _ Rx I) as Lx.
  destruct Lx as [f up' a cs bs T1 T2 W1 W2 T3 T4 -> T6 T7 T8 _ T9 T10].
  assert (exists c s, r = c :: s /\ c <> "$"%char /\ c <> "%"%char) as (c & s & Er & N1 & N2).
  { destruct Nt as [D | [Id _]].
    - destruct (denotes_head _ _ D) as (c & s & -> & A & B & _). eauto.
    - destruct (identifier_head _ Id) as (c & s & -> & H). exists c, s. split; [reflexivity|].
      split; apply word_char_not; auto; vm_compute; tauto. }
  unfold cond_expr_text. rewrite Il. rewrite Er at 1. rewrite (info_plain _ _ N1 N2). rewrite <- Er. rewrite Fx.
  unfold cond_value_comp. destruct (cpp_written _ _ Wo) as (Wc & Fo & _).
  destruct (prep_number (ce_gen ce) ce _ _ _ _ _ _ _ _ _ eq_refl T7 T1 T2 Nt Su) as (lit & El & m & Cm & Vm).
  rewrite El. cbn [bind]. destruct T9 as [T9 T9']. rewrite T9. rewrite T6, T8.
  apply with_checks_says with (e := XNum a (cpp_op op) a lit); auto.
  - match goal with |- lay ?t ?u => replace t with u end.
    + cbn [print]. apply acc_lay; [exact W1|].
      repeat apply flat_app; auto; try flat_lit; [now apply class_flat|eapply constant_flat; eauto].
    + cbn [print]. rewrite <- !app_assoc. f_equal. cbn [app]. change (T ".getValue() ") with (T ".getValue()" ++ T " ").
      rewrite <- !app_assoc. do 3 f_equal. rewrite (app_assoc (op_type_prefix x)). change (L "::") with (T "::").
      rewrite (app_assoc _ (cast_type _ _ _ _ _)). rewrite <- (app_assoc (op_type_prefix x)). rewrite T9'.
      change (T "::ValueType>(") with (T "::ValueType" ++ T ">("). rewrite <- !app_assoc. reflexivity.
  - eapply value_num; eauto.
Qed.
Lemma expr_fields l op r path pres ty names z path' pres' ty' names' z' o : refers l [] path -> from env path pres (VNum ty names z) ->
  refers r [] path' -> from env path' pres' (VNum ty' names' z') -> cpp_holds ty z' -> written dsl_ops op o ->
  says env (cond_expr_text ce up sibs l op r) (pres && pres' && num_holds o z z').
Proof.
  intros Rl Fl Rr Fr Hz Wo. destruct (refers_ref _ _ Rl) as (Il & Wp & _). destruct (refers_ref _ _ Rr) as (Ir & Wp' & _).
  destruct (resolve0 _ _ _ Fl Wp) as (x & Fx & Rx). destruct (resolve0 _ _ _ Fr Wp') as (y & Fy & Ry).
  destruct (resolved_leaf _ _ _ _ _ Rx I) as [f up' a cs bs T1 T2 W1 W2 T3 T4 -> T6 T7 T8 _ T9 T10].
  destruct (resolved_leaf _ _ _ _ _ Ry I) as [f' up'' a' cs' bs' U1 U2 X1 X2 U3 U4 -> U6 U7 U8 _ _ _].
  unfold cond_expr_text. rewrite Il, Ir, Fx, Fy. unfold cond_field_comp. destruct (cpp_written _ _ Wo) as (Wc & Fo & _).
  destruct T9 as [T9 T9']. rewrite T9, T6, U6, T8, U8. rewrite <- map_app.
  replace (all_true bs && all_true bs') with (all_true (bs ++ bs')) by apply forallb_app.
  apply with_checks_says with (e := XFields a (cpp_op op) a a'); auto.
  - apply Forall_app; auto.
  - apply Forall2_app; auto.
  - match goal with |- lay ?t ?u => replace t with u end.
    + cbn [print]. apply acc_lay; [exact W1|].
      repeat apply flat_app; auto; try flat_lit; [now apply class_flat|now apply acc_flat].
    + cbn [print]. rewrite <- !app_assoc. f_equal. cbn [app]. change (T ".getValue() ") with (T ".getValue()" ++ T " ").
      rewrite <- !app_assoc. do 3 f_equal. change (L "static_cast<typename Field_") with (T "static_cast<typename " ++ T "Field_").
      change (T " static_cast<typename ") with (T " " ++ T "static_cast<typename "). rewrite <- !app_assoc. do 2 f_equal.
      change (L "::") with (T "::"). rewrite (app_assoc (T "Field_")). rewrite <- T10.
      rewrite (app_assoc (T "::")). rewrite (app_assoc (op_type_prefix x)). rewrite T9'.
      change (T "::ValueType>(") with (T "::ValueType" ++ T ">("). change (T ".getValue())") with (T ".getValue()" ++ T ")"). rewrite <- !app_assoc. reflexivity.
  - eapply value_fields; eauto. now apply converted_self.
Qed.
Lemma plain_text_value s : s <> [] -> Forall plain_char s -> string_value ce s = [chr 34] ++ s ++ [chr 34] /\
  exists c r, s = c :: r /\ c <> "$"%char /\ c <> "%"%char.
Proof.
  intros N F. destruct s as [|c r]; [congruence|]. assert (~ In "^"%char (c :: r)) as NC.
  { intro I. rewrite Forall_forall in F. apply (F _ I). vm_compute. tauto. }
  split.
  - unfold string_value. destruct (ch_eqb c "^") eqn:E; [apply Ascii.eqb_eq in E; subst; exfalso; apply NC; now left|].
    now rewrite (proj2 (split_at_None "^"%char (c :: r)) NC).
  - inversion F as [|? ? H _]; subst. exists c, r. split; [reflexivity|]. split; intros ->; apply H; vm_compute; tauto.
Qed.
Lemma plain_flat s : Forall plain_char s -> flat s.
Proof. intros F I. rewrite Forall_forall in F. apply (F _ I). vm_compute. tauto. Qed.
Lemma expr_text l op r path pres s o : refers l [] path -> from env path pres (VText s) -> r <> [] -> Forall plain_char r ->
  written dsl_ops op o -> says env (cond_expr_text ce up sibs l op r) (pres && text_holds o s r).
Proof.
  intros Rl Fl Nr Pr Wo. destruct (refers_ref _ _ Rl) as (Il & Wp & _).
  destruct (resolve0 _ _ _ Fl Wp) as (x & Fx & Rx).
  destruct (resolved_leaf _ _ _ _ _ Rx I) as [f up' a cs bs T1 T2 W1 W2 T3 T4 -> T6 T7 T8 _ T9 T10].
  destruct (plain_text_value r Nr Pr) as (Sv & c & s' & Er & N1 & N2).
  unfold cond_expr_text. rewrite Il. rewrite Er at 1. rewrite (info_plain _ _ N1 N2). rewrite <- Er. rewrite Fx.
  unfold cond_value_comp. destruct (cpp_written _ _ Wo) as (Wc & Fo & _).
  cbn [prep_value]. rewrite T7. destruct f; try contradiction; [|exfalso; eapply T2; reflexivity].
  cbn [bind]. rewrite Sv. cbn [cast_ok] in T9. rewrite T9. cbn [is_nil]. rewrite T6, T8.
  apply with_checks_says with (e := XText a (cpp_op op) r); auto.
  - match goal with |- lay ?t ?u => replace t with u end.
    + cbn [print]. apply acc_lay; [exact W1|].
      repeat apply flat_app; auto; try flat_lit. now apply plain_flat.
    + cbn [print]. rewrite <- !app_assoc. reflexivity.
  - now constructor.
Qed.
Lemma size_comparable w n : size_of w n -> comparable w /\ forall o a, size_ok ce w o a ->
  op_prefix o ++ size_access (ce_gen ce) (op_up o) (op_field o) (op_acc o) [] = print_acc a ++ T ".getValue().size()".
Proof. intros [-> | (s & -> & ->)]; split; try exact I; intros o a H; exact H. Qed.
Lemma expr_size l op r path pres w n k o : refers l (T "#") path -> from env path pres w -> size_of w n -> 
  numeral 10 r k -> (hd_error r = Some "0"%char -> r = T "0") -> k < 2 ^ 63 -> written dsl_ops op o ->
  says env (cond_expr_text ce up sibs l op r) (pres && num_holds o n k).
Proof.
  intros (-> & Np & Wp) Fl Sz Nu Z0 Kk Wo.
  destruct (resolve0 _ _ _ Fl Wp) as (x & Fx & Rx). destruct (size_comparable _ _ Sz) as [Cw Hs].
  destruct (resolved_leaf _ _ _ _ _ Rx Cw) as [f up' a cs bs T1 T2 W1 W2 T3 T4 -> T6 T7 T8 T9 _ _]. apply Hs in T9.
  destruct (numeral_head _ _ Nu) as (c & s' & Er & N1 & N2). destruct (dec_constant _ _ Nu Z0 Kk) as [Ck K0].
  unfold cond_expr_text. change ("$"%char :: T "#" ++ join (T ".") path) with ("$"%char :: "#"%char :: join (T ".") path). rewrite info_size.
  rewrite Er at 1. rewrite (info_plain _ _ N1 N2). rewrite <- Er. rewrite Fx.
  unfold cond_size_comp. rewrite T9, T6. destruct (cpp_written _ _ Wo) as (Wc & Fo & Heq & Hne).
  change (L "==") with (T "=="). change (L "!=") with (T "!="). change (L "0") with (T "0"). cbv zeta.
  assert (str_eqb r (T "0") = true -> k = 0) as K00.
  { intro E. apply str_eqb_eq in E. rewrite E in Nu. assert (numeral 10 (T "0") 0) as M.
    { apply num_one. split; [lia|]. left. reflexivity. } exact (numeral_det 10 _ _ _ ltac:(lia) Nu M). }
  destruct (str_eqb (cpp_op op) (T "==") && str_eqb r (T "0")) eqn:E1.
  { apply andb_true_iff in E1 as [E1 E1']. rewrite (Heq E1), (K00 E1'). rewrite (size_empty a W1). cbn [bind].
    apply with_checks_says with (e := XEmpty a); auto; [apply acc_lay; [exact W1|flat_lit]|].
    eapply value_empty; eauto. }
  destruct (str_eqb (cpp_op op) (T "!=") && str_eqb r (T "0")) eqn:E2.
  { apply andb_true_iff in E2 as [E2 E2']. rewrite (Hne E2), (K00 E2'). rewrite (size_empty a W1). cbn [bind].
    apply with_checks_says with (e := XNot (XEmpty a)); auto.
    - cbn [print]. apply (lay_flat "!"%char); [|discriminate]. apply (flat_app [_] _); [flat_lit|]. apply flat_app; [now apply acc_flat|flat_lit].
    - apply value_not; [|exact I]. eapply value_empty; eauto. }
  cbn [bind]. apply with_checks_says with (e := XSize a (cpp_op op) r); auto.
  - match goal with |- lay ?t ?u => replace t with u end.
    + cbn [print]. apply acc_lay; [exact W1|]. repeat apply flat_app; auto; try flat_lit. eapply constant_flat; eauto.
    + cbn [print]. rewrite <- !app_assoc. reflexivity.
  - eapply value_size; eauto. lia.
Qed.
Lemma expr_bit r op path bit pres bs x : refers r [] (path ++ [bit]) -> from env path pres (VBits bs) ->
  first_named bit bs = Some x -> op = [] \/ op = T "!" ->
  says env (cond_expr_text ce up sibs [] op r) (pres && (if is_nil op then x else negb x)).
Proof.
  intros Rr Fr Fb Ho. pose proof Fr as [_ Np]. destruct (refers_value _ _ _ Rr Np) as (Ir & Wp & Wb). inversion Wb as [|? ? Wbit _]; subst.
  destruct (resolve ce up sibs env path pres (VBits bs) [bit] Te Ac Fr Wp) as (o & Fo & Ro).
  unfold cond_expr_text. change (operand_info []) with (OInvalid, MNone, @nil ascii). rewrite Ir, Fo.
  destruct Ro as [va sa ca oc lf [f up' a cs bs' T1 T2 W1 W2 T3 T4 T5 T6 T7 T8 T9 T10] E1 E2 E3 E4 E5 E6].
  destruct f; try contradiction; [|exfalso; eapply T2; reflexivity]. cbn [obody own_present join] in *. rewrite app_nil_r in T9. rewrite andb_true_r in T5. subst pres.
  cbn [vbody] in T6. assert (is_nil bit = false) as Nb by (destruct Wbit as [Nb _]; destruct bit; [congruence|reflexivity]).
  rewrite Nb in T6. cbn [tbody] in T1. assert (exists i, assoc bit (s_bits s) = Some i) as (i & Ei).
  { rewrite Forall_forall in T1. apply first_named_In in Fb. specialize (T1 _ Fb). cbn [fst] in T1.
    clear - T1. induction (s_bits s) as [|[k v] l IH]; [destruct T1|]. cbn [assoc map fst In] in *.
    destruct (str_eqb k bit) eqn:E; [eauto|]. destruct T1 as [->|T1]; [|auto]. rewrite (proj2 (str_eqb_eq _ _) eq_refl) in E. discriminate. }
  rewrite Ei in T6.
  assert (op_value (ce_gen ce) o = print_acc a ++ T ".getBitValue_" ++ bit ++ T "()") as Va.
  { unfold op_value. apply (hom_use (value_access (ce_gen ce) (op_up o) (op_field o) (op_acc o))); [apply value_hom| |apply acc_starts].
    rewrite E1. exact T6. }
  rewrite E4, T9, Va, list_join.
  assert (cpp_op op = op) as -> by (destruct Ho as [-> | ->]; reflexivity).
  set (e := if is_nil op then XBit a bit else XNot (XBit a bit)).
  assert (op ++ print_acc a ++ T ".getBitValue_" ++ bit ++ T "()" = print e) as -> by (unfold e; destruct Ho as [-> | ->]; reflexivity).
  assert (lay (print e) (print e)) as Le.
  { assert (flat (print_acc a ++ T ".getBitValue_" ++ bit ++ T "()")) as Fl.
    { repeat apply flat_app; try flat_lit; [now apply acc_flat|now apply word_flat]. }
    unfold e. destruct Ho as [-> | ->]; cbn [is_nil print].
    - apply starts_lay; [apply acc_starts|exact Fl].
    - apply (lay_flat "!"%char); [|discriminate]. apply (flat_app [_] _); [flat_lit|exact Fl]. }
  assert (value env (XBit a bit) x) as Vb by (econstructor; eauto).
  exists (join (sep true) (map exists_text cs ++ [print e])), (XAll true (map XExists cs ++ [e])). split; [reflexivity|]. split.
  - change (print (XAll true (map XExists cs ++ [e]))) with (join (sep true) (map print (map XExists cs ++ [e]))).
    rewrite map_app, map_map. apply lay_join.
    + apply Forall2_app; [now apply checks_lay|]. constructor; [exact Le|constructor].
    + intro E. apply app_eq_nil in E as [_ E]. discriminate.
  - apply checks_value; auto.
    + unfold e. destruct Ho as [-> | ->]; cbn [is_nil]; [exact Vb|]. apply value_not; [exact Vb|exact I].
    + unfold e. destruct (is_nil op); exact I.
Qed.
Lemma expr_exists r op path pres w : refers r (T "?") path -> from env path pres w -> through_optional (VMembers env) path ->
  op = [] \/ op = T "!" ->
  says env (cond_expr_text ce up sibs [] op r) (if is_nil op then pres else negb pres).
Proof.
  intros (-> & Np & Wp) Fr Th Ho.
  destruct (resolve0 _ _ _ Fr Wp) as (o & Fo & Ro).
  unfold cond_expr_text. change (operand_info []) with (OInvalid, MNone, @nil ascii).
  change ("$"%char :: T "?" ++ join (T ".") path) with ("$"%char :: "?"%char :: join (T ".") path). rewrite info_exists, Fo.
  assert (op_checks (ce_gen ce) o <> []) as Nn.
  { inversion Th as [| | |? n v q Fn Th']; subst. inversion Wp as [|? ? Wn Wq]; subst.
    destruct (env_find _ _ _ _ _ _ Te Fn) as (m & Fm & Nm & Tm).
    unfold find_operand in Fo. rewrite word_seg in Fo by exact Wn. rewrite Fm in Fo. cbn [option_map] in Fo. injection Fo as <-.
    unfold op_checks. cbn [op_up op_field op_acc]. rewrite rest_join. eapply through_checks; eauto. }
  destruct Ro as [va sa ca oc lf [f up' a cs bs T1 T2 W1 W2 T3 T4 T5 T6 T7 T8 T9 T10] E1 E2 E3 E4 E5 E6]. clear va sa ca lf T6 T7 T8 T10 E1 E2 E3 E5 E6.
  assert (exists cs' bs', Forall acc_words cs' /\ Forall2 (fun c b => value env (XExists c) b) cs' bs' /\ pres = all_true bs' /\ oc = map exists_text cs') as
    (cs' & bs' & Wc & Fc & -> & Eo).
  { destruct f; try (exists cs, bs; repeat split; auto;
      [rewrite T5; destruct w; try contradiction; apply andb_true_r|rewrite T9; cbn [obody join is_nil]; now rewrite app_nil_r]; fail).
    - exfalso. eapply T2; reflexivity.
    - destruct w; try contradiction. exists (cs ++ [a]), (bs ++ [present]). repeat split.
      + apply Forall_app; auto.
      + apply Forall2_app; auto. constructor; [|constructor]. econstructor; eauto.
      + rewrite T5. unfold all_true. rewrite forallb_app. cbn. now rewrite andb_true_r.
      + rewrite T9, map_app. reflexivity. }
  unfold cond_exists_comp. rewrite E4 in *. rewrite Eo in *. destruct cs' as [|c cs']; [cbn in Nn; congruence|].
  assert (is_nil (map exists_text (c :: cs')) = false) as -> by reflexivity.
  assert (cpp_op op = op) as -> by (destruct Ho as [-> | ->]; reflexivity). rewrite list_join.
  assert (lay (join (sep true) (map exists_text (c :: cs'))) (print (XAll true (map XExists (c :: cs'))))) as Lj.
  { cbn [print]. rewrite map_map. apply lay_join; [now apply checks_lay|discriminate]. }
  assert (value env (XAll true (map XExists (c :: cs'))) (all_true bs')) as Vj.
  { constructor; [|discriminate|].
    - clear - Fc. induction Fc; cbn [map]; auto.
    - clear. induction (c :: cs'); cbn [map]; constructor; auto. exact I. }
  destruct Ho as [-> | ->]; cbn [is_nil].
  - exists (join (sep true) (map exists_text (c :: cs'))), (XAll true (map XExists (c :: cs'))). auto.
  - set (J := join (sep true) (map exists_text (c :: cs'))) in *. set (E := XAll true (map XExists (c :: cs'))) in *.
    assert (template [Text (T "!("); Hole (T "COND"); Text (T ")")]) as Tt.
    { constructor; [apply plain_no_hash; vm_compute; intuition discriminate|apply name_no_hash; vm_compute; intuition discriminate|].
      constructor. apply end_no_hash. vm_compute; intuition discriminate. }
    pose proof (PTemplate.C36_filled _ [(L "COND", J)] Tt) as Ef. eexists. exists (XNot (XParen E)). split; [apply Ef|].
    { intros k [<- | []]. change (J <> []). apply nonnil. eapply lay_nonnil; eauto. }
    split.
    + cbn [filled]. change (lookup (T "COND") [(L "COND", J)]) with J. intros b y. cbn [print]. rewrite <- !app_assoc.
      assert (forall z, unindent b (T "!(" ++ z) = T "!(" ++ unindent false z) as U by (intro; destruct b; reflexivity).
      rewrite U. rewrite (lay_indented _ _ _ Lj). reflexivity.
    + apply value_not; [|exact I]. now constructor.
Qed.

Lemma says_nonempty r b : says env r b -> exists t, r = Ok t /\ t <> [].
Proof. intros (t & e & E & L & _). exists t. split; [exact E|]. apply nonnil. eapply lay_nonnil; eauto. Qed.

Theorem cond_says : forall c brackets b, supported_cond env c -> means env c b -> says env (cond_text ce up sibs brackets c) b.
Proof.
  induction c as [l op r|isAnd cs IH] using GroundFacts.cond_ind'; intros brackets b Su Me.
  - inversion Su as [? ? ? S1 S2 S3 S4|]; subst. cbn [cond_text].
    inversion Me; subst.
    + eapply (expr_bit r []); eauto.
    + eapply (expr_bit r (T "!")); eauto.
    + eapply (expr_exists r []); eauto.
    + eapply (expr_exists r (T "!")); eauto.
    + eapply expr_num; eauto.
    + eapply expr_fields; eauto.
    + eapply expr_text; eauto.
    + match goal with H : refers _ (T "#") _, N : numeral 10 _ _ |- _ => destruct (S3 _ _ H N) end. eapply expr_size; eauto.
  - inversion Su as [|? ? Nc Lc Fs]; subst.
    assert (exists bs, Forall2 (means env) cs bs /\ b = if isAnd then forallb (fun b => b) bs else existsb (fun b => b) bs) as (bs & Fm & Eb).
    { inversion Me; subst; eauto. }
    cbn [cond_text]. 
    assert (exists ts es, (fix go (cs : list cond) : res (list str) :=
               match cs with
               | [] => Ok []
               | c :: cs' => v <- cond_text ce up sibs true c ;; rest <- go cs' ;; Ok (v :: rest)
               end) cs = Ok ts /\ length ts = length cs /\ Forall2 lay ts (map print es) /\ Forall2 (value env) es bs) as (ts & es & -> & Ln & Fl & Fv).
    { clear Su Me Nc Lc Eb. revert IH Fs. induction Fm as [|c b' cs bs Mc Fm IHF]; intros IH Fs.
      - exists [], []. repeat split; constructor.
      - inversion Fs as [|? ? Sc Fs']; subst. inversion IH as [|? ? Hc IH']; subst.
        destruct (Hc true b' Sc Mc) as (t & e & -> & Lt & Vt). destruct (IHF IH' Fs') as (ts & es & -> & Ln & Fl & Fv).
        exists (t :: ts), (e :: es). repeat split; [now cbn; rewrite Ln|now constructor|now constructor]. }
    cbn [bind]. assert (ts <> []) as Nt by (destruct ts; [destruct cs; [congruence|discriminate]|discriminate]).
    destruct (list_lay isAnd brackets ts (map print es) Fl Nt ltac:(rewrite Ln; exact Lc)) as (t & E & Lt).
    destruct (list_template _ _ _) as [t' r'].
    assert (value env (XAll isAnd (map XParen es)) b) as V.
    { assert (es <> []) as Ne by (intros ->; inversion Fl; subst; congruence).
      subst b. destruct isAnd; constructor.
      1, 4: clear - Fv; induction Fv; cbn [map]; constructor; auto; now constructor.
      1, 3: destruct es; [congruence|discriminate].
      all: clear; induction es; cbn [map]; constructor; auto; exact I. }
    exists t, (if brackets then XParen (XAll isAnd (map XParen es)) else XAll isAnd (map XParen es)). split; [exact E|]. split.
    + rewrite map_map in Lt. destruct brackets; cbn [print]; rewrite map_map; exact Lt.
    + destruct brackets; [now constructor|exact V].
Qed.
End Expr.
