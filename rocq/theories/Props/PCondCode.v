(** C54: conditions of optional fields in the generated code. *)
From Coq Require Import Lia.
From Verif.Model Require Import Base Common Xml Units Field FieldCommon IntField OptCond Composite GenUtil GenComms CommsInt CommsCond.
From Verif.Spec Require Import Texts Ints FieldSpec GenSpec CppSpec Ex CondCode CondTyping.
From Verif.Proofs Require Import BaseFacts CommonFacts FieldInv ExFacts TemplateFacts WrapFacts GenFacts CondCodeFacts CondTextFacts CondExprFacts CondMeanFacts.
From Verif.Props Require Import PTemplate.
Local Open Scope string_scope.
Local Open Scope Z_scope.
Local Open Scope list_scope.

(** The text generated for a condition is, up to layout, a C++ expression whose value on the
    generated classes is what the condition means on the values of the fields. *)
Theorem C54_condition_partial : forall ce up siblings env brackets c b,
  typed_env (ce_gen ce) up siblings env -> accessible (VMembers env) -> supported_cond env c -> means env c b ->
  exists t e, cond_text ce up siblings brackets c = Ok t /\ code t e /\ value env e b.
Proof.
  intros ce up sibs env br c b Te Ac Su Me. destruct (cond_says ce up sibs env Te Ac c br b Su Me) as (t & e & E & L & V).
  exists t, e. split; [exact E|]. split; [now apply lay_code|exact V].
Qed.
Print Assumptions C54_condition_partial.


(** ** The refresh function *)
Definition in_b (c : ascii) (l : txt) : bool := if in_dec ascii_dec c l then true else false.
Lemma in_b_In c l : in_b c l = true -> In c l. Proof. unfold in_b. destruct (in_dec ascii_dec c l); [auto|discriminate]. Qed.
Lemma lines_unindent s : forall b, exists l ls, lines_of s = l :: ls /\ lines_of (unindent b s) = unindent b l :: map (unindent true) ls.
Proof.
  unfold lines_of. induction s as [|c s IH]; intro b.
  - exists [], []. split; [reflexivity|]. destruct b; reflexivity.
  - cbn [cut_at unindent]. destruct (Ascii.eqb_spec newline c) as [<-|N].
    + destruct (IH true) as (l & ls & E1 & E2). exists [], (cut_at (Ascii.eqb newline) s). split; [reflexivity|].
      change (if ascii_dec newline " " then true else false) with false. rewrite andb_false_r. cbn [cut_at]. rewrite Ascii.eqb_refl.
      change (if ascii_dec newline newline then true else false) with true. rewrite E2, E1. reflexivity.
    + destruct (b && (if ascii_dec c " " then true else false)) eqn:B.
      * destruct (IH true) as (l & ls & E1 & E2). rewrite E1. exists (c :: l), ls. split; [reflexivity|]. rewrite E2. cbn [unindent]. rewrite B. reflexivity.
      * assert ((if ascii_dec c newline then true else false) = false) as F by (destruct (ascii_dec c newline); congruence).
        destruct (IH false) as (l & ls & E1 & E2). rewrite E1. exists (c :: l), ls. split; [reflexivity|]. cbn [unindent]. rewrite B, F. cbn [cut_at].
        destruct (Ascii.eqb_spec newline c); [contradiction|]. rewrite E2. reflexivity.
Qed.
Lemma has_text_unindent l : forall b, has_text (unindent b l) = has_text l.
Proof.
  induction l as [|c l IH]; intro b; [reflexivity|]. cbn [unindent]. destruct (ascii_dec c " ") as [->|N].
  - destruct b; cbn [andb]; rewrite ?IH; [reflexivity|]. change (has_text (" "%char :: unindent false l) = has_text (" "%char :: l)).
    change (has_text (unindent false l) = has_text l). apply IH.
  - rewrite andb_false_r. unfold has_text in *. cbn [existsb]. f_equal. apply IH.
Qed.
Lemma rows_unindent s : text_rows (unindent true s) = map (unindent true) (text_rows s).
Proof.
  unfold text_rows. destruct (lines_unindent s true) as (l & ls & -> & ->). 
  change (unindent true l :: map (unindent true) ls) with (map (unindent true) (l :: ls)). generalize (l :: ls). clear.
  induction l as [|r l IH]; [reflexivity|]. cbn [map filter]. rewrite has_text_unindent. destruct (has_text r); cbn [map]; now rewrite IH.
Qed.
Lemma rows_join l : l <> [] -> text_rows (join [newline] l) = concat (map text_rows l).
Proof.
  induction l as [|a [|b l] IH]; intro N; [congruence|cbn; now rewrite app_nil_r|].
  change (join [newline] (a :: b :: l)) with (a ++ newline :: join [newline] (b :: l)).
  change (concat (map text_rows (a :: b :: l))) with (text_rows a ++ concat (map text_rows (b :: l))).
  rewrite <- IH by discriminate. unfold text_rows, lines_of. rewrite cut_app by (apply Ascii.eqb_refl). apply filter_app.
Qed.
Definition refresh_pieces : list piece :=
  [Text (L "auto mode = comms::field::OptionalMode::Missing;" ++ [nl] ++ L "if ("); Hole (T "COND");
   Text (L ") {" ++ [nl] ++ L "    mode = comms::field::OptionalMode::Exists;" ++ [nl] ++ L "}" ++ [nl; nl] ++ L "if (field_"); Hole (T "NAME");
   Text (T "()"); Hole (T "FIELD_ACC");
   Text (L ".getMode() == mode) {" ++ [nl] ++ L "    return false;" ++ [nl] ++ L "}" ++ [nl; nl] ++ L "field_"); Hole (T "NAME");
   Text (T "()"); Hole (T "FIELD_ACC"); Text (L ".setMode(mode);" ++ [nl] ++ L "return true;" ++ [nl])].
Lemma in_b_not c l : in_b c l = false -> ~ In c l. Proof. unfold in_b. destruct (in_dec ascii_dec c l); [discriminate|auto]. Qed.
Lemma refresh_template : template refresh_pieces.
Proof.
  unfold refresh_pieces.
  repeat (constructor; [apply plain_no_hash, in_b_not; vm_compute; reflexivity|apply name_no_hash, in_b_not; vm_compute; reflexivity|]).
  constructor. apply end_no_hash, in_b_not. vm_compute. reflexivity.
Qed.
Lemma indented_flat n t : flat t -> indented n t = t.
Proof.
  intro F. rewrite indented_chars. induction t as [|c t IH]; [reflexivity|]. cbn [indent_chars].
  destruct (ascii_dec c newline) as [->|]; [exfalso; apply F; now left|]. f_equal. apply IH. intro I. apply F. now right.
Qed.
Lemma unindent_nl y : unindent false (newline :: y) = newline :: unindent true y. Proof. reflexivity. Qed.
(** The generated refresh function of an optional field with a condition sets the mode of that
    field to "exists" exactly if the condition holds, and reports whether that was a change. *)
Theorem C54_refresh_partial : forall ce up siblings env c b f common st own g cnd v,
  typed_env (ce_gen ce) up siblings env -> accessible (VMembers env) -> supported_cond env c -> means env c b ->
  find_named (f_name f) siblings = Some f -> first_named (f_name f) env = Some v -> f = FOptional common st own g cnd -> word (f_name f) ->
  exists body o e p n w, refresh_body ce up siblings f c = Ok body /\
    text_rows (unindent true body) = text_rows (refresh_code (print_acc o) (print e)) /\
    value env e b /\ obj env o (VOptional p n w).
Proof.
  intros ce up sibs env c b f cm st own g cnd v Te Ac Su Me Ff Fv Ef Wf.
  destruct (cond_says ce up sibs env Te Ac c false b Su Me) as (t & e & E & Lt & V).
  unfold refresh_body. rewrite E. cbn [bind]. rewrite (lay_nonnil _ _ Lt).
  set (acc_s := if version_optional (ce_gen ce) up f then L ".field()" else []).
  set (repl := [(L "NAME", genAccessName (f_name f)); (L "COND", t)] ++ (if version_optional (ce_gen ce) up f then [(L "FIELD_ACC", L ".field()")] else [])).
  destruct (C36_rows refresh_pieces repl refresh_template) as (body & Eb & Rb).
  exists body, (if version_optional (ce_gen ce) up f then AInner (AField (genAccessName (f_name f))) else AField (genAccessName (f_name f))), e.
  destruct (env_find _ _ _ _ _ _ Te Fv) as (m & Fm & _ & Tm). rewrite Ff in Fm. injection Fm as <-.
  assert (obj env (AField (genAccessName (f_name f))) v) as O.
  { constructor. apply accessed_first; auto. apply word_nonnil, Wf. }
  assert (exists p n w, obj env (if version_optional (ce_gen ce) up f then AInner (AField (genAccessName (f_name f))) else AField (genAccessName (f_name f))) (VOptional p n w)) as (p & n & w & Oo).
  { rewrite typed_eq in Tm. destruct (version_optional (ce_gen ce) up f); rewrite Ef in Tm.
    - destruct v as [| | | | | |pv w|]; try contradiction. destruct w as [| | | | |p n w'| |]; try contradiction. exists p, n, w'. eapply obj_versioned; eauto.
    - destruct v as [| | | | |p n w| |]; try contradiction. exists p, n, w. exact O. }
  exists p, n, w. split; [exact Eb|]. split; [|split; [exact V|exact Oo]].
  rewrite rows_unindent, Rb, <- rows_unindent.
  assert (lookup (T "COND") repl = t) as K1 by reflexivity. assert (lookup (T "NAME") repl = genAccessName (f_name f)) as K2 by reflexivity.
  assert (lookup (T "FIELD_ACC") repl = acc_s) as K3 by (unfold repl, acc_s; destruct (version_optional _ _ _); reflexivity).
  assert (flat (genAccessName (f_name f))) as Fn by (apply word_flat, access_word, Wf).
  assert (flat acc_s) as Fa by (unfold acc_s; destruct (version_optional _ _ _); flat_lit).
  cbn [refresh_pieces filled]. rewrite K1, K2, K3. rewrite !(indented_flat _ _ Fn), !(indented_flat _ _ Fa).
  set (o := print_acc _). assert (o = T "field_" ++ genAccessName (f_name f) ++ T "()" ++ acc_s) as ->.
  { unfold o, acc_s. destruct (version_optional _ _ _); cbn [print_acc]; rewrite <- ?app_assoc; rewrite ?app_nil_r; reflexivity. }
  set (x := genAccessName (f_name f)) in *. clearbody x acc_s. generalize (column
     (([] ++ L "auto mode = comms::field::OptionalMode::Missing;" ++ [nl] ++ L "if ("))). intro col.
  assert (forall s y, unindent true ((L "field_" ++ x ++ T "()" ++ acc_s ++ s) ++ y) = unindent true (L "field_" ++ x ++ T "()" ++ acc_s ++ s ++ y)) as _ by (intros; now rewrite <- !app_assoc).
  assert (forall y, flat y -> forall s z, y = "f"%char :: s \/ y = "i"%char :: s -> unindent true (y ++ z) = y ++ unindent false z) as UF.
  { intros y Fy s z [-> | ->]; apply lay_flat; auto; discriminate. }
  assert (forall z, unindent true (T "if (field_" ++ x ++ T "()" ++ acc_s ++ z) = T "if (field_" ++ x ++ T "()" ++ acc_s ++ unindent false z) as U1.
  { intro z. assert (flat (T "if (field_" ++ x ++ T "()" ++ acc_s)) as Fz by (repeat apply flat_app; auto; flat_lit).
    replace (T "if (field_" ++ x ++ T "()" ++ acc_s ++ z) with ((T "if (field_" ++ x ++ T "()" ++ acc_s) ++ z) by (rewrite <- !app_assoc; reflexivity).
    rewrite (UF _ Fz _ z ltac:(right; reflexivity)). rewrite <- !app_assoc. reflexivity. }
  assert (forall z, unindent true (T "field_" ++ x ++ T "()" ++ acc_s ++ z) = T "field_" ++ x ++ T "()" ++ acc_s ++ unindent false z) as U2.
  { intro z. assert (flat (T "field_" ++ x ++ T "()" ++ acc_s)) as Fz by (repeat apply flat_app; auto; flat_lit).
    replace (T "field_" ++ x ++ T "()" ++ acc_s ++ z) with ((T "field_" ++ x ++ T "()" ++ acc_s) ++ z) by (rewrite <- !app_assoc; reflexivity).
    rewrite (UF _ Fz _ z ltac:(left; reflexivity)). rewrite <- !app_assoc. reflexivity. }
  match goal with |- text_rows (unindent true ?L) = _ => 
    assert (unindent true L = T "auto mode = comms::field::OptionalMode::Missing;" ++ [newline] ++ T "if (" ++ print e ++
      T ") {" ++ [newline] ++ T "mode = comms::field::OptionalMode::Exists;" ++ [newline] ++ T "}" ++ [newline; newline] ++
      T "if (field_" ++ x ++ T "()" ++ acc_s ++ T ".getMode() == mode) {" ++ [newline] ++ T "return false;" ++ [newline] ++ T "}" ++ [newline; newline] ++
      T "field_" ++ x ++ T "()" ++ acc_s ++ T ".setMode(mode);" ++ [newline] ++ T "return true;" ++ [newline]) as -> end.
  - rewrite <- ?app_assoc.
    assert (forall z, unindent true (L "auto mode = comms::field::OptionalMode::Missing;" ++ [nl] ++ L "if (" ++ z) =
      T "auto mode = comms::field::OptionalMode::Missing;" ++ [newline] ++ T "if (" ++ unindent false z) as -> by reflexivity.
    rewrite (lay_indented _ _ _ Lt). do 4 f_equal.
    change (L "if (field_") with (T "if (field_"). 
    assert (forall z, unindent false (L ") {" ++ [nl] ++ L "    mode = comms::field::OptionalMode::Exists;" ++ [nl] ++ L "}" ++ [nl; nl] ++ z) =
      T ") {" ++ [newline] ++ T "mode = comms::field::OptionalMode::Exists;" ++ [newline] ++ T "}" ++ [newline; newline] ++ unindent true z) as -> by reflexivity.
    rewrite U1.
    assert (forall z, unindent false (L ".getMode() == mode) {" ++ [nl] ++ L "    return false;" ++ [nl] ++ L "}" ++ [nl; nl] ++ z) =
      T ".getMode() == mode) {" ++ [newline] ++ T "return false;" ++ [newline] ++ T "}" ++ [newline; newline] ++ unindent true z) as -> by reflexivity.
    change (L "field_") with (T "field_"). rewrite U2. reflexivity.
  - unfold refresh_code. rewrite rows_join by discriminate.
    transitivity (text_rows (join [newline] [T "auto mode = comms::field::OptionalMode::Missing;"; T "if (" ++ print e ++ T ") {";
      T "mode = comms::field::OptionalMode::Exists;"; T "}"; []; T "if (" ++ (T "field_" ++ x ++ T "()" ++ acc_s) ++ T ".getMode() == mode) {"; T "return false;"; T "}"; [];
      (T "field_" ++ x ++ T "()" ++ acc_s) ++ T ".setMode(mode);"; T "return true;"; []])).
    + f_equal. cbn [join]. rewrite <- !app_assoc. reflexivity.
    + rewrite rows_join by discriminate. reflexivity.
Qed.
Print Assumptions C54_refresh_partial.
Definition x_int := el "int" [("name", "n"); ("type", "uint8")] [el "special" [("name", "Big"); ("val", "200")] []].
Definition x_set := el "set" [("name", "flags"); ("length", "1")] [el "bit" [("name", "hasN"); ("idx", "0")] []].
Definition x_opt := el "optional" [("name", "o"); ("defaultMode", "exists")] [el "field" [] [el "int" [("name", "x"); ("type", "int16")] []]].
Definition x_bundle := el "bundle" [("name", "B")] [x_set; x_int; x_opt; el "string" [("name", "Str")] [];
  el "optional" [("name", "last")] [
    el "field" [] [el "int" [("name", "y"); ("type", "uint8")] []];
    el "or" [] [
      el "and" [] [el "cond" [("value", "$flags.hasN")] []; el "cond" [("value", "$n >= Big")] []];
      el "cond" [("value", "!$?o")] [];
      el "cond" [("value", "$o.x = $n")] [];
      el "cond" [("value", "$#Str != 0")] [];
      el "cond" [("value", "$Str = abc")] []]]].
Definition ex_fields : list field := Eval vm_compute in match got_field (ex_global [] x_bundle) with FBundle _ ms _ _ => ms | _ => [] end.
Definition ex_cond : cond := Eval vm_compute in match ex_fields with [_; _; _; _; FOptional _ _ _ _ (Some c)] => c | _ => CList true [] end.
Definition ex_ce (ge : gen_env) : cond_env := mkCE ge (fun _ => None) [].
Definition plain_ge : gen_env := mkGE (mkGV 5 None 0) false.
Definition ex_env : list (txt * dval) := [
  (T "flags", VBits [(T "hasN", true)]);
  (T "n", VNum (T "std::uint8_t") [(T "Big", 200)] 210);
  (T "o", VOptional true (T "x") (VNum (T "std::int16_t") [] (-5)));
  (T "Str", VText (T "ab"));
  (T "last", VOptional false (T "y") (VNum (T "std::uint8_t") [] 0))].

Lemma join_words_inj p : forall q, Forall word p -> Forall word q -> p <> [] -> q <> [] -> join (T ".") p = join (T ".") q -> p = q.
Proof.
  induction p as [|n p IH]; intros [|m q] Wp Wq Np Nq E; try congruence. inversion Wp; inversion Wq; subst.
  pose proof (f_equal first_seg E) as F. rewrite !word_seg in F by assumption. apply pair_equal_spec in F as [-> F]. f_equal.
  destruct p as [|n' p], q as [|m' q]; try discriminate; [reflexivity|]. apply IH; auto; try discriminate. congruence.
Qed.
Lemma refers_det s m p q : refers s m p -> refers s m q -> p = q.
Proof.
  intros (E & N & W) (E' & N' & W'). rewrite E in E'. injection E' as E'. apply app_inv_head in E'. now apply join_words_inj.
Qed.
Lemma reach_det v p b w : reach v p b w -> forall b' w', reach v p b' w' -> w = w'.
Proof.
  intro R. induction R; intros b0 w0 R0; inversion R0; subst; try reflexivity; eauto.
  match goal with A : first_named _ _ = Some ?x, B : first_named _ _ = Some ?y |- _ => assert (x = y) as -> by congruence end. eauto.
Qed.
Lemma from_det env p b w b' w' : from env p b w -> from env p b' w' -> w = w'.
Proof. intros [R _] [R' _]. eapply reach_det; eauto. Qed.
Lemma not_ref s m p c r : s = c :: r -> c <> "$"%char -> refers s m p -> False.
Proof. intros -> N (E & _). injection E as E _. congruence. Qed.
Lemma marked s c m p : s = "$"%char :: c :: m -> letter_or_underscore c -> forall q, refers s [q] p -> q = c.
Proof. intros -> H q (E & _). cbn in E. injection E as -> _. reflexivity. Qed.
Definition word_b (w : txt) : bool := negb (is_nil w) &&
  forallb (fun c => in_b c (T "ABCDEFGHIJKLMNOPQRSTUVWXYZabcdefghijklmnopqrstuvwxyz_") || in_b c (T "0123456789")) w.
Lemma word_b_word w : word_b w = true -> word w.
Proof.
  unfold word_b. intro H. apply andb_true_iff in H as [N H]. split; [destruct w; discriminate|]. apply Forall_forall. intros c I.
  rewrite forallb_forall in H. specialize (H c I). apply orb_true_iff in H as [H | H]; [left|right]; apply in_b_In; exact H.
Qed.
Ltac word_lit := apply word_b_word; vm_compute; reflexivity.
Ltac refs := split; [reflexivity|split; [discriminate|repeat (constructor; [word_lit|]); constructor]].
Ltac goes := split; [repeat (first [eapply reach_member; [reflexivity|] | constructor | eapply (reach_wrapped true _ _ _ true)])|discriminate].
(** derivations of a path that contradict the values *)
Ltac known path ref :=
  match goal with R : refers _ _ path |- _ => assert (path = ref) as -> by (eapply refers_det; [exact R|refs]) end.
Ltac absurd_ref := exfalso; match goal with R : refers _ _ _ |- _ => destruct R as (R & _); cbn in R; discriminate end.

Lemma ex_typed : typed_env plain_ge [] ex_fields ex_env.
Proof.
  unfold ex_fields, ex_env.
  apply Forall2_cons. { split; [reflexivity|]. cbn. constructor; [vm_compute; tauto|constructor]. }
  apply Forall2_cons. { split; [reflexivity|]. split; [reflexivity|]. split.
    + right. exists 8. split; [vm_compute; tauto|]. unfold unsigned_bits. lia.
    + constructor; [|constructor]. split; [reflexivity|]. split; [cbn; lia|]. cbn. split; [lia|reflexivity]. }
  apply Forall2_cons. { split; [reflexivity|]. split; [reflexivity|]. split; [reflexivity|]. split; [|constructor]. left. exists 16. split; [vm_compute; tauto|]. unfold signed_bits. lia. }
  apply Forall2_cons. { split; [reflexivity|]. exact I. }
  apply Forall2_cons. { split; [reflexivity|]. split; [reflexivity|]. split; [reflexivity|]. split; [|constructor]. right. exists 8. split; [vm_compute; tauto|]. unfold unsigned_bits. lia. }
  constructor.
Qed.
Lemma accessible_members ms : Forall (fun m => accessible (snd m)) ms -> Forall (fun m => fst m <> []) ms ->
  NoDup (map (fun m => genAccessName (fst m)) ms) -> accessible (VMembers ms).
Proof.
  intros F N D. constructor; [exact F|]. intros n v n' v' x I1 I2 A1 A2. rewrite Forall_forall in N.
  pose proof (accessor_det _ _ _ A1 (access_accessor _ (N _ I1))) as E1.
  pose proof (accessor_det _ _ _ A2 (access_accessor _ (N _ I2))) as E2. cbn [fst] in *. rewrite E1 in E2. clear - D I1 I2 E2.
  induction ms as [|[k u] ms IH]; [destruct I1|]. cbn [map fst] in D. inversion D as [|? ? Nk D']; subst.
  destruct I1 as [I1 | I1], I2 as [I2 | I2].
  - congruence.
  - apply pair_equal_spec in I1 as [-> ->]. exfalso. apply Nk. rewrite E2. apply (in_map (fun m => genAccessName (fst m)) _ _ I2).
  - apply pair_equal_spec in I2 as [-> ->]. exfalso. apply Nk. rewrite <- E2. apply (in_map (fun m => genAccessName (fst m)) _ _ I1).
  - auto.
Qed.
Lemma ex_accessible : accessible (VMembers ex_env).
Proof.
  apply accessible_members; [repeat constructor|repeat constructor; discriminate|].
  vm_compute. repeat constructor; cbn; intuition discriminate.
Qed.
Lemma hash_no_value s p : refers ("$"%char :: "#"%char :: s) [] p -> False.
Proof.
  intros (E & N & W). apply (f_equal (@tl _)) in E. cbn [tl app] in E. destruct (words_head p [] W N) as (c & r & E' & H). rewrite app_nil_r in E'.
  rewrite E' in E. assert (c = "#"%char) as -> by congruence. destruct H as [H | H]; vm_compute in H; intuition discriminate.
Qed.
Ltac sup := apply supported_expr; intros; try absurd_ref; try (exfalso; eapply hash_no_value; eassumption).
Ltac value_at p v := match goal with F : from _ p _ _ |- _ => pose proof (from_det _ _ _ _ _ v F ltac:(goes)) as FD end.
Lemma ex_supported : supported_cond ex_env ex_cond.
Proof.
  unfold ex_cond. apply supported_list; [discriminate|cbn; lia|].
  apply Forall_cons. { apply supported_list; [discriminate|cbn; lia|]. apply Forall_cons; [|apply Forall_cons; [|constructor]].
    - sup.
    - sup. known path [T "n"]. value_at [T "n"] (VNum (T "std::uint8_t") [(T "Big", 200)] 210). injection FD as -> -> ->.
      destruct H1 as [D | [_ E]].
      + exfalso. eapply identifier_no_number; [|exact D]. split; [word_lit|]. eexists. split; [reflexivity|]. apply in_b_In; vm_compute; reflexivity.
      + cbn in E. injection E as <-. split; [|lia]. right. exists 8. split; [vm_compute; tauto|]. unfold unsigned_bits. lia. }
  apply Forall_cons. { sup. known path [T "o"]. eapply through_member; [reflexivity|]. constructor. }
  apply Forall_cons. { sup.
    - exfalso. destruct H1 as [D | [Id _]].
      + destruct (denotes_head _ _ D) as (c & r & E & Nc & _). injection E as <- _. congruence.
      + destruct (identifier_head _ Id) as (c & r & E & Hc). injection E as <- _. vm_compute in Hc. intuition discriminate.
    - known path [T "o"; T "x"]. known path' [T "n"].
      value_at [T "n"] (VNum (T "std::uint8_t") [(T "Big", 200)] 210). injection FD as -> -> ->.
      value_at [T "o"; T "x"] (VNum (T "std::int16_t") [] (-5)). injection FD as -> -> ->.
      left. exists 16. split; [vm_compute; tauto|]. unfold signed_bits. lia. }
  apply Forall_cons. { sup. assert (numeral 10 (T "0") 0) as M by (apply num_one; split; [lia|left; reflexivity]).
    pose proof (numeral_det 10 _ _ _ ltac:(lia) H0 M). split; [lia|auto]. }
  apply Forall_cons. { sup. known path [T "Str"]. value_at [T "Str"] (VText (T "ab")). discriminate FD. }
  constructor.
Qed.
Example C54_ex : typed_env plain_ge [] ex_fields ex_env /\ accessible (VMembers ex_env) /\ supported_cond ex_env ex_cond /\
  means ex_env ex_cond true /\
  cond_text (ex_ce plain_ge) [] ex_fields false ex_cond = Ok (join [newline] (map T [
    "(((field_flags().getBitValue_hasN()) &&";
    "  (field_n().getValue() >= static_cast<typename Field_n::ValueType>(200)))) ||";
    " (!(field_o().doesExist())) ||";
    " (field_o().doesExist() &&";
    "  (field_o().field().getValue() == static_cast<typename Field_o::Field::ValueType>(field_n().getValue()))) ||";
    " (!field_str().getValue().empty()) ||";
    " (field_str().getValue() == ""abc"")"])).
Proof.
  split; [exact ex_typed|]. split; [exact ex_accessible|]. split; [exact ex_supported|]. split; [|vm_compute; reflexivity].
  assert (means ex_env ex_cond (existsb (fun b => b) [forallb (fun b => b) [true && true; true && num_holds RGe 210 200]; negb true;
    true && true && num_holds REq (-5) 210; true && num_holds RNe 2 0; true && text_holds REq (T "ab") (T "abc")])) as M; [|exact M].
  unfold ex_cond. apply means_or. apply Forall2_cons.
  { apply means_and. apply Forall2_cons; [|apply Forall2_cons; [|constructor]].
    - eapply (means_bit _ _ [T "flags"] (T "hasN")); [refs|goes|reflexivity].
    - eapply (means_num _ _ _ _ [T "n"]); [refs|goes| |vm_compute; tauto]. right. split; [|reflexivity]. split; [word_lit|].
      eexists. split; [reflexivity|]. apply in_b_In; vm_compute; reflexivity. }
  apply Forall2_cons. { eapply (means_not_exists _ _ [T "o"]); [refs|goes]. }
  apply Forall2_cons. { eapply (means_fields _ _ _ _ [T "o"; T "x"] _ _ _ _ [T "n"]); [refs|goes|refs|goes|vm_compute; tauto]. }
  apply Forall2_cons. { eapply (means_size _ _ _ _ [T "Str"]); [refs|goes|right; exists (T "ab"); split; reflexivity|apply num_one; split; [lia|left; reflexivity]|vm_compute; tauto]. }
  apply Forall2_cons. { eapply (means_text _ _ _ _ [T "Str"]); [refs|goes|discriminate| |vm_compute; tauto].
    repeat constructor; intro H; vm_compute in H; intuition discriminate. }
  constructor.
Qed.

(** Where the hypotheses fail. The fields of the next examples were added in version 1 of
    the schema, and the generated code knows only later versions. *)
Definition late_int := el "int" [("name", "n"); ("type", "uint8"); ("sinceVersion", "1")] [el "special" [("name", "Big"); ("val", "200")] []].
Definition late_set := el "set" [("name", "flags"); ("length", "1"); ("sinceVersion", "1")] [el "bit" [("name", "hasN"); ("idx", "0")] []].
Definition bundle_with (c : node) : node := el "bundle" [("name", "B")] [late_set; late_int; el "string" [("name", "Str")] [];
  el "optional" [("name", "last")] [el "field" [] [el "int" [("name", "y"); ("type", "uint8")] []]; c]].
Definition fields_with (c : node) : list field := match got_field (ex_global [] (bundle_with c)) with FBundle _ ms _ _ => ms | _ => [] end.
Definition cond_with (c : node) : cond := match fields_with c with [_; _; _; FOptional _ _ _ _ (Some c)] => c | _ => CList true [] end.
Definition env_with (flag : bool) (n : Z) : list (txt * dval) := [
  (T "flags", VBits [(T "hasN", flag)]); (T "n", VNum (T "std::uint8_t") [(T "Big", 200)] n); (T "Str", VText (T "ab"));
  (T "last", VOptional false (T "y") (VNum (T "std::uint8_t") [] 0))].
Definition ask (l : list string) : node := el "or" [] (map (fun v => el "cond" [("value", v)] []) l).
Definition exists_ask := ask ["$?n"; "$flags.hasN"].
Definition exists_fields : list field := Eval vm_compute in fields_with exists_ask.
Lemma typed_with flag n : 0 <= n < 256 -> typed_env plain_ge [] exists_fields (env_with flag n).
Proof.
  intro Hn. unfold exists_fields, env_with.
  apply Forall2_cons. { split; [reflexivity|]. cbn. constructor; [vm_compute; tauto|constructor]. }
  apply Forall2_cons. { split; [reflexivity|]. split; [reflexivity|]. split.
    + right. exists 8. split; [vm_compute; tauto|]. unfold unsigned_bits. lia.
    + constructor; [|constructor]. split; [reflexivity|]. split; [cbn; lia|]. cbn. split; [lia|reflexivity]. }
  apply Forall2_cons. { split; [reflexivity|]. exact I. }
  apply Forall2_cons. { split; [reflexivity|]. split; [reflexivity|]. split; [reflexivity|]. split; [|constructor]. right. exists 8. split; [vm_compute; tauto|]. unfold unsigned_bits. lia. }
  constructor.
Qed.
Lemma accessible_with flag n : accessible (VMembers (env_with flag n)).
Proof.
  apply accessible_members; [repeat constructor|repeat constructor; discriminate|].
  vm_compute. repeat constructor; cbn; intuition discriminate.
Qed.
Lemma obj_with flag n x v : In (x, v) (env_with flag n) -> x = genAccessName x -> obj (env_with flag n) (AField x) v.
Proof.
  intros Hi Hx. constructor. rewrite Hx. apply accessed_first; [apply accessible_with|intros ->; cbn in Hi; intuition discriminate|].
  cbn in Hi. repeat (destruct Hi as [Hi | Hi]; [injection Hi as <- <-; reflexivity|]). destruct Hi.
Qed.
(** "exists" of a field that always exists is dropped: the condition holds, the generated one does not *)
Theorem C54_exists_refuted : is_Ok (ex_global [] (bundle_with exists_ask)) = true /\
  typed_env plain_ge [] exists_fields (env_with false 7) /\ accessible (VMembers (env_with false 7)) /\
  means (env_with false 7) (cond_with exists_ask) true /\
  exists t e, cond_text (ex_ce plain_ge) [] exists_fields false (cond_with exists_ask) = Ok t /\ code t e /\ value (env_with false 7) e false.
Proof.
  split; [vm_compute; reflexivity|]. split; [apply typed_with; lia|]. split; [apply accessible_with|].
  assert (cond_with exists_ask = CList false [CExpr [] [] (T "$?n"); CExpr [] [] (T "$flags.hasN")]) as -> by (vm_compute; reflexivity). split.
  - apply (means_or _ _ [true; true && false]). apply Forall2_cons; [|apply Forall2_cons; [|constructor]].
    + eapply (means_exists _ _ [T "n"]); [refs|goes].
    + eapply (means_bit _ _ [T "flags"] (T "hasN")); [refs|goes|reflexivity].
  - exists (T "(field_flags().getBitValue_hasN())"), (XParen (XBit (AField (T "flags")) (T "hasN"))).
    split; [vm_compute; reflexivity|]. split; [vm_compute; reflexivity|].
    constructor. eapply value_bit; [apply obj_with; [vm_compute; tauto|reflexivity]|reflexivity].
Qed.
Print Assumptions C54_exists_refuted.
(** as the only condition it leaves the field without refresh function *)
Theorem C54_lost_refuted : exists f, is_Ok (ex_global [] (bundle_with (ask ["$?n"; "$?flags"]))) = true /\
  nth_error (fields_with (ask ["$?n"; "$?flags"])) 3 = Some f /\
  refresh_body (ex_ce plain_ge) [] (fields_with (ask ["$?n"; "$?flags"])) f (cond_with (ask ["$?n"; "$?flags"])) = Ok [].
Proof.
  eexists. split; [vm_compute; reflexivity|]. split; [vm_compute; reflexivity|]. vm_compute. reflexivity.
Qed.
Print Assumptions C54_lost_refuted.
(** the last condition of a list dropped: the text ends with the operator *)
Theorem C54_operator_refuted : cond_text (ex_ce plain_ge) [] exists_fields false (cond_with (ask ["$flags.hasN"; "$?n"])) =
  Ok (T "(field_flags().getBitValue_hasN()) ||" ++ [newline]).
Proof. vm_compute. reflexivity. Qed.
Print Assumptions C54_operator_refuted.
(** a number which is no value of the field is wrapped *)
Theorem C54_wrapped_refuted : is_Ok (ex_global [] (bundle_with (el "and" [] [el "cond" [("value", "$n = 300")] []; el "cond" [("value", "$n = 44")] []]))) = true /\
  typed_env plain_ge [] exists_fields (env_with false 44) /\ accessible (VMembers (env_with false 44)) /\
  means (env_with false 44) (CExpr (T "$n") (T "=") (T "300")) false /\
  exists t e, cond_text (ex_ce plain_ge) [] exists_fields false (CExpr (T "$n") (T "=") (T "300")) = Ok t /\ code t e /\ value (env_with false 44) e true.
Proof.
  split; [vm_compute; reflexivity|]. split; [apply typed_with; lia|]. split; [apply accessible_with|]. split.
  - assert (means (env_with false 44) (CExpr (T "$n") (T "=") (T "300")) (true && num_holds REq 44 300)) as M; [|exact M]. eapply (means_num _ _ _ _ [T "n"]); [refs|goes| |vm_compute; tauto]. left.
    apply (proj1 (proj1 (stoll_spec (T "300") 300) eq_refl)).
  - exists (T "field_n().getValue() == static_cast<typename Field_n::ValueType>(300)"), (XNum (AField (T "n")) (T "==") (AField (T "n")) (T "300")).
    split; [vm_compute; reflexivity|]. split; [vm_compute; reflexivity|].
    change true with (num_holds REq 44 44). assert (obj (env_with false 44) (AField (T "n")) (VNum (T "std::uint8_t") [(T "Big", 200)] 44)) as O
      by (apply obj_with; [vm_compute; tauto|reflexivity]).
    eapply value_num with (n := 300); [exact O|exact O|vm_compute; tauto| |].
    + apply const_lit with (t := TInt). apply (cpp_dec (T "300") [] [TInt; TLong; TLongLong]); [|discriminate|left; auto|].
      * apply (dec_str_spec 300). vm_compute. split; [discriminate|reflexivity].
      * constructor. unfold ctype_holds. cbn. lia.
    + split; [right; exists 8; split; [vm_compute; tauto|unfold unsigned_bits; lia]|].
      intros k I. cbn [app signed_cpp unsigned_cpp In] in I. repeat (destruct I as [I | I]; [first [discriminate I|injection I as <-; reflexivity]|]). destruct I.
Qed.
Print Assumptions C54_wrapped_refuted.
(** quotes of the compared text are not escaped *)
Theorem C54_quotes_refuted : is_Ok (ex_global [] (bundle_with (ask ["$Str = a""b"; "$flags.hasN"]))) = true /\
  cond_text (ex_ce plain_ge) [] exists_fields false (CExpr (T "$Str") (T "=") (T "a""b")) = Ok (T "field_str().getValue() == ""a""b""").
Proof. split; vm_compute; reflexivity. Qed.
Print Assumptions C54_quotes_refuted.
