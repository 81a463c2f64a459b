(** Layout of generated conditions. *)
From Coq Require Import Lia.
From Verif.Model Require Import Base Common Xml Units Field FieldCommon IntField OptCond GenUtil GenComms CommsInt CommsCond.
From Verif.Spec Require Import Texts Ints FieldSpec GenSpec CppSpec CondCode CondTyping.
From Verif.Proofs Require Import BaseFacts CommonFacts IntFacts FieldInv GenFacts TemplateFacts WrapFacts CommsIntFacts CondCodeFacts.
From Verif.Props Require Import PTemplate.
Local Open Scope string_scope.
Local Open Scope Z_scope.
Local Open Scope list_scope.

Definition flat (t : txt) : Prop := ~ In newline t.
(** [t] stands for [u] up to layout, wherever it is written *)
Definition lay (t u : txt) : Prop := forall b y, unindent b (t ++ y) = u ++ unindent false y.
Lemma unindent_flat t y : flat t -> unindent false (t ++ y) = t ++ unindent false y.
Proof.
  induction t as [|c t IH]; intros F; [reflexivity|]. cbn [app unindent andb].
  destruct (ascii_dec c newline) as [->|]; [exfalso; apply F; now left|]. rewrite IH; [reflexivity|]. intro I. apply F. now right.
Qed.
Lemma lay_flat c t : flat (c :: t) -> c <> " "%char -> lay (c :: t) (c :: t).
Proof.
  intros F N b y. cbn [app unindent]. destruct (ascii_dec c " "); [contradiction|]. rewrite andb_false_r.
  destruct (ascii_dec c newline) as [->|]; [exfalso; apply F; now left|]. rewrite unindent_flat; [reflexivity|]. intro I. apply F. now right.
Qed.
Lemma lay_more t u s : lay t u -> flat s -> lay (t ++ s) (u ++ s).
Proof. intros H F b y. rewrite <- !app_assoc. rewrite H. f_equal. now apply unindent_flat. Qed.
Lemma lay_app t u t' u' : lay t u -> lay t' u' -> lay (t ++ t') (u ++ u').
Proof. intros H H' b y. rewrite <- !app_assoc, H, H'. reflexivity. Qed.
Lemma lay_line t u s t' u' : lay t u -> flat s -> lay t' u' -> lay (t ++ s ++ newline :: t') (u ++ s ++ newline :: u').
Proof.
  intros H F H' b y. rewrite <- !app_assoc, H. f_equal. rewrite unindent_flat by exact F. f_equal.
  cbn [app unindent]. cbn. f_equal. apply H'.
Qed.
Lemma lay_code t e : lay t (print e) -> code t e.
Proof. intro H. unfold code. specialize (H false []). rewrite app_nil_r in H. rewrite H. cbn. now rewrite app_nil_r. Qed.
Lemma lay_nonnil t u : lay t u -> is_nil t = false.
Proof. destruct t; [|reflexivity]. intro H. pose proof (H true [" "%char]) as A. pose proof (H false []) as B. cbn in *. destruct u; cbn in *; discriminate. Qed.
Lemma unindent_blanks n y : unindent true (repeat " "%char n ++ y) = unindent true y.
Proof. induction n; [reflexivity|]. cbn. exact IHn. Qed.
Fixpoint indent_chars (n : nat) (t : txt) : txt :=
  match t with [] => [] | c :: r => if ascii_dec c newline then newline :: repeat " "%char n ++ indent_chars n r else c :: indent_chars n r end.
Lemma indented_chars n t : indented n t = indent_chars n t.
Proof.
  unfold indented, lines_of. induction t as [|c t IH]; [reflexivity|]. cbn [cut_at indent_chars].
  pose proof (cut_nonnil (Ascii.eqb newline) t) as NN.
  destruct (ascii_dec c newline) as [->|N].
  - rewrite Ascii.eqb_refl. destruct (cut_at (Ascii.eqb newline) t) as [|w ws]; [congruence|]. cbn [join app] in *. now rewrite IH.
  - destruct (Ascii.eqb_spec newline c) as [E|_]; [congruence|]. destruct (cut_at (Ascii.eqb newline) t) as [|w ws]; [congruence|].
    rewrite <- IH. destruct ws; reflexivity.
Qed.
Lemma unindent_indented n t b y : unindent b (indented n t ++ y) = unindent b (t ++ y).
Proof.
  rewrite indented_chars. revert b. induction t as [|c t IH]; intro b; [reflexivity|]. cbn [indent_chars].
  destruct (ascii_dec c newline) as [->|N].
  - cbn [app unindent]. destruct (b && (if ascii_dec newline " " then true else false)) eqn:E; [exfalso; destruct b; discriminate|].
    f_equal. destruct (ascii_dec newline newline); [|congruence]. rewrite <- app_assoc, unindent_blanks. apply IH.
  - cbn [app unindent]. destruct (b && _); [apply IH|]. f_equal. apply IH.
Qed.
Lemma lay_indented n t u : lay t u -> lay (indented n t) u.
Proof. intros H b y. rewrite unindent_indented. apply H. Qed.
Lemma lay_join isAnd ts us : Forall2 lay ts us -> ts <> [] -> lay (join (sep isAnd) ts) (join (sep isAnd) us).
Proof.
  intros F. induction F as [|t u ts us H F IH]; [congruence|]. intros _. destruct F as [|t' u' ts us H' F]; [exact H|].
  change (lay (t ++ sep isAnd ++ join (sep isAnd) (t' :: ts)) (u ++ sep isAnd ++ join (sep isAnd) (u' :: us))).
  assert (forall x, sep isAnd ++ x = (if isAnd then T " &&" else T " ||") ++ newline :: x) as E
    by (intro; unfold sep; rewrite <- app_assoc; reflexivity).
  rewrite !E. apply lay_line; [exact H| |apply IH; discriminate].
  destruct isAnd; unfold flat; vm_compute; intuition discriminate.
Qed.
Lemma list_join l j : genStrListToString l j [] = join j l.
Proof. induction l as [|e [|e' l] IH]; [reflexivity|apply app_nil_r|]. change (e ++ j ++ genStrListToString (e' :: l) j [] = e ++ j ++ join j (e' :: l)). now rewrite IH. Qed.

(** ** Templates *)
Lemma no_hash_occurs a x t : ~ In "#"%char t -> (length x < length a)%nat -> hd_error a = Some "#"%char -> ~ occurs a (t ++ x).
Proof.
  intros N Lx Ha (p & q & E). destruct a as [|c a]; [discriminate|]. injection Ha as ->.
  assert (length t <= length p)%nat as Lp.
  { destruct (Nat.le_gt_cases (length t) (length p)) as [|G]; [assumption|]. exfalso. apply N.
    assert (nth_error (t ++ x) (length p) = Some "#"%char) as X.
    { rewrite E. rewrite nth_error_app2 by lia. rewrite Nat.sub_diag. reflexivity. }
    rewrite nth_error_app1 in X by exact G. now apply nth_error_In in X. }
  apply (f_equal (@length _)) in E. rewrite !app_length in E. cbn in *. lia.
Qed.
Lemma plain_no_hash t : ~ In "#"%char t -> plain t.
Proof. intro N. apply no_hash_occurs; [exact N|cbn; lia|reflexivity]. Qed.
Lemma name_no_hash t : ~ In "#"%char t -> name_ok t.
Proof. intro N. apply no_hash_occurs; [exact N|cbn; lia|reflexivity]. Qed.
Lemma end_no_hash t : ~ In "#"%char t -> ~ occurs (T "#^#") t.
Proof. intros N. rewrite <- (app_nil_r t). apply no_hash_occurs; [exact N|cbn; lia|reflexivity]. Qed.

Definition checks_pieces := [Text []; Hole (T "COND"); Text (T " &&" ++ [newline] ++ T "("); Hole (T "EXPR"); Text (T ")")].
Lemma checks_template : template checks_pieces.
Proof.
  unfold checks_pieces. repeat (constructor; [apply plain_no_hash; vm_compute; intuition discriminate|apply name_no_hash; vm_compute; intuition discriminate|]).
  constructor. apply end_no_hash. vm_compute; intuition discriminate.
Qed.
Lemma nonnil (t : txt) : is_nil t = false -> t <> [].
Proof. destruct t; [discriminate|discriminate]. Qed.
Lemma with_checks_lay checks us expr u : Forall2 lay checks us -> lay expr u ->
  exists t, with_checks checks expr = Ok t /\
    lay t (match us with [] => u | _ => join (sep true) (us ++ [T "(" ++ u ++ T ")"]) end).
Proof.
  intros F H. unfold with_checks. destruct F as [|c v cs vs Hc F]; [exists expr; auto|]. cbn [is_nil].
  rewrite list_join. change and_nl with (sep true).
  assert (lay (join (sep true) (c :: cs)) (join (sep true) (v :: vs))) as LC by (apply lay_join; [constructor; assumption|discriminate]).
  set (C := join (sep true) (c :: cs)) in *.
  pose proof (C36_filled checks_pieces [(L "COND", C); (L "EXPR", expr)] checks_template) as E.
  eexists. split; [apply E|].
  { intros k [<- | [<- | []]]; [change (C <> [])|change (expr <> [])]; apply nonnil; eapply lay_nonnil; eassumption. }
  cbn [filled checks_pieces]. change (lookup (T "COND") _) with C. change (lookup (T "EXPR") _) with expr.
  assert (forall us x, us <> [] -> join (sep true) (us ++ [x]) = join (sep true) us ++ sep true ++ x) as J.
  { clear. intros us x. induction us as [|u [|u' us] IH]; intros N; [congruence|reflexivity|].
    change (u ++ sep true ++ join (sep true) ((u' :: us) ++ [x]) = (u ++ sep true ++ join (sep true) (u' :: us)) ++ sep true ++ x).
    rewrite IH by discriminate. now rewrite <- !app_assoc. }
  rewrite J by discriminate. intros b y. rewrite <- !app_assoc. cbn [app].
  rewrite (lay_indented _ _ _ LC). f_equal. cbn. do 5 f_equal. rewrite (lay_indented _ _ _ H). reflexivity.
Qed.

(** ** Lists of conditions *)
Definition lead_blank (count : Z) : txt := if 0 <? count then L " " else [].
Definition cond_key (count : Z) : txt := L "COND" ++ dec_str (count + 1).
Fixpoint lt_pieces (lead op : txt) (count : Z) (l : list txt) (trail : txt) : list piece :=
  match l with
  | [] => [Text (lead ++ trail)]
  | v :: l' => Text (lead ++ lead_blank count ++ T "(") :: Hole (cond_key count) ::
               lt_pieces (T ")" ++ (if is_nil l' then [] else op)) op (count + 1) l' trail
  end.
Definition full (l : list txt) : Prop := Forall (fun t => is_nil t = false) l.
Lemma lt_text lead op count l trail : full l ->
  template_text (lt_pieces lead op count l trail) = lead ++ fst (list_template op count l) ++ trail.
Proof.
  intro F. revert lead count. induction F as [|v l Nv F IH]; intros lead count.
  - cbn. now rewrite app_nil_r.
  - cbn [lt_pieces template_text list_template]. rewrite Nv. rewrite IH. fold (cond_key count).
    destruct (list_template op (count + 1) l) as [t r]. cbn [fst]. unfold lead_blank.
    change (L "(#^#") with (T "(" ++ T "#^#"). change (L "#$#)") with (T "#$#" ++ T ")").
    rewrite <- !app_assoc. reflexivity.
Qed.
Definition digit_char (c : ascii) : Prop := In c (T "0123456789abcdefABCDEF").
Lemma numeral_chars b s n : numeral b s n -> Forall digit_char s.
Proof.
  assert (forall c v, is_digit b c v -> digit_char c) as D.
  { intros c v [_ [H | H]]; apply nth_error_In in H; unfold digit_char; vm_compute in H |- *; tauto. }
  intro N. induction N as [c v Dc|ds c n v N IH Dc]; [constructor; eauto|]. apply Forall_app. split; [exact IH|]. constructor; eauto.
Qed.
Lemma dec_no_hash z : 0 <= z < two64 -> ~ In "#"%char (dec_str z).
Proof.
  intros H I. destruct (dec_str_spec z H) as [N _]. apply numeral_chars in N. rewrite Forall_forall in N. specialize (N _ I).
  vm_compute in N. intuition discriminate.
Qed.
Lemma key_no_hash z : 0 <= z -> z + 1 < two64 -> ~ In "#"%char (cond_key z).
Proof.
  intros H1 H2 I. unfold cond_key in I. apply in_app_or in I as [I | I]; [vm_compute in I; intuition discriminate|].
  apply dec_no_hash in I; [exact I|lia].
Qed.
Lemma numeral_det b s n m : b <= 16 -> numeral b s n -> numeral b s m -> n = m.
Proof. intros B N M. apply numeral_spec in N as (_ & _ & ->); [|exact B]. apply numeral_spec in M as (_ & _ & ->); [|exact B]. reflexivity. Qed.
Lemma key_inj x y : 0 <= x -> x + 1 < two64 -> 0 <= y -> y + 1 < two64 -> cond_key x = cond_key y -> x = y.
Proof.
  intros X1 X2 Y1 Y2 E. unfold cond_key in E. apply app_inv_head in E.
  destruct (dec_str_spec (x + 1) ltac:(lia)) as [N _], (dec_str_spec (y + 1) ltac:(lia)) as [M _]. rewrite E in N.
  pose proof (numeral_det 10 _ _ _ ltac:(lia) N M). lia.
Qed.
Lemma lt_template lead op count l trail : ~ In "#"%char lead -> ~ In "#"%char op -> ~ In "#"%char trail ->
  0 <= count -> count + Z.of_nat (length l) < two64 -> template (lt_pieces lead op count l trail).
Proof.
  revert lead count. induction l as [|v l IH]; intros lead count Hl Ho Ht C1 C2; cbn [lt_pieces].
  - constructor. apply end_no_hash. intro I. apply in_app_or in I. tauto.
  - cbn [length] in C2. constructor.
    + apply plain_no_hash. intro I. apply in_app_or in I as [I | I]; [tauto|]. unfold lead_blank in I.
      destruct (0 <? count); vm_compute in I; intuition discriminate.
    + apply name_no_hash, key_no_hash; lia.
    + apply IH; auto; try lia. intros [E | I]; [discriminate|]. destruct (is_nil l); [destruct I|tauto].
Qed.
Lemma lt_lookup op count l : full l -> 0 <= count -> count + Z.of_nat (length l) < two64 ->
  forall i t, nth_error l i = Some t -> lookup (cond_key (count + Z.of_nat i)) (snd (list_template op count l)) = t.
Proof.
  intro F. revert count. induction F as [|v l Nv F IH]; intros count C1 C2 i t E; [destruct i; discriminate|].
  cbn [list_template]. rewrite Nv. cbn [length] in C2. fold (cond_key count).
  specialize (IH (count + 1) ltac:(lia) ltac:(lia)).
  destruct (list_template op (count + 1) l) as [t' r]. cbn [snd] in *. destruct i as [|i].
  - cbn [nth_error] in E. injection E as ->. rewrite Z.add_0_r. cbn [lookup]. now rewrite (proj2 (str_eqb_eq _ _) eq_refl).
  - cbn [nth_error] in E. cbn [lookup]. assert (i < length l)%nat by (apply nth_error_Some; congruence).
    destruct (str_eqb (cond_key (count + Z.of_nat (S i))) (cond_key count)) eqn:Q.
    + apply str_eqb_eq in Q. apply key_inj in Q; lia.
    + specialize (IH i t E). replace (count + 1 + Z.of_nat i) with (count + Z.of_nat (S i)) in IH by lia. exact IH.
Qed.
Lemma lt_holes lead op count l trail : forall k, In k (holes (lt_pieces lead op count l trail)) ->
  exists i t, nth_error l i = Some t /\ k = cond_key (count + Z.of_nat i).
Proof.
  revert lead count. induction l as [|v l IH]; intros lead count k; [intros []|]. cbn [lt_pieces holes]. intros [<- | I].
  - exists O, v. split; [reflexivity|]. now rewrite Z.add_0_r.
  - apply IH in I as (i & t & E & ->). exists (S i), t. split; [exact E|]. f_equal. lia.
Qed.
Definition paren (u : txt) : txt := T "(" ++ u ++ T ")".
Lemma lt_lay (val : txt -> txt) isAnd trail ts us : Forall2 lay ts us -> ts <> [] -> flat trail ->
  forall lead count b0 (P : txt), (forall y, unindent b0 (lead ++ lead_blank count ++ T "(" ++ y) = P ++ T "(" ++ unindent false y) ->
  0 <= count ->
  (forall i t, nth_error ts i = Some t -> val (cond_key (count + Z.of_nat i)) = t) ->
  forall done y, unindent b0 (filled val done (lt_pieces lead (sep isAnd) count ts trail) ++ y) =
    P ++ join (sep isAnd) (map paren us) ++ trail ++ unindent false y.
Proof.
  intros F. induction F as [|t u ts us H F IH]; [congruence|]. intros _ Ft lead count b0 P HP C0 HV done y.
  cbn [lt_pieces filled]. rewrite <- !app_assoc. rewrite HP. f_equal. 
  pose proof (HV O t eq_refl) as V0. rewrite Z.add_0_r in V0. rewrite V0.
  rewrite (lay_indented _ _ _ H). destruct F as [|t' u' ts us H' F].
  - cbn [lt_pieces filled is_nil map join]. unfold paren. rewrite !app_nil_r. rewrite <- !app_assoc. do 2 f_equal.
    change (T ")" ++ trail ++ y) with ((")"%char :: trail) ++ y).
    rewrite unindent_flat; [reflexivity|]. intros [E | I]; [discriminate|auto].
  - cbn [is_nil]. 
    rewrite (IH ltac:(discriminate) Ft (T ")" ++ sep isAnd) (count + 1) false (T ")" ++ sep isAnd)).
    + change (map paren (u :: u' :: us)) with (paren u :: map paren (u' :: us)).
      change (join (sep isAnd) (paren u :: map paren (u' :: us))) with (paren u ++ sep isAnd ++ join (sep isAnd) (map paren (u' :: us))).
      unfold paren at 2. rewrite <- !app_assoc. reflexivity.
    + intro z. unfold lead_blank. destruct (Z.ltb_spec 0 (count + 1)); [|lia]. unfold sep. destruct isAnd; reflexivity.
    + lia.
    + intros i x E. replace (count + 1 + Z.of_nat i) with (count + Z.of_nat (S i)) by lia. apply HV. exact E.
Qed.
Lemma lay_full ts us : Forall2 lay ts us -> full ts.
Proof. intro F. induction F; constructor; auto. eapply lay_nonnil; eauto. Qed.
Lemma list_lay (isAnd brackets : bool) (ts us : list txt) : Forall2 lay ts us -> ts <> [] -> Z.of_nat (length ts) < 2 ^ 32 ->
  exists t, (let (t, r) := list_template (if isAnd then and_nl else or_nl) 0 ts in
             genProcessTemplate (if brackets then L "(" ++ t ++ L ")" else t) r false) = Ok t /\
    lay t (if brackets then paren (join (sep isAnd) (map paren us)) else join (sep isAnd) (map paren us)).
Proof.
  intros F N Ln. pose proof (lay_full _ _ F) as Fu.
  assert (0 + Z.of_nat (length ts) < two64) as B by (change two64 with (2 ^ 64); lia).
  assert ((if isAnd then and_nl else or_nl) = sep isAnd) as -> by (destruct isAnd; reflexivity).
  set (lead := if brackets then T "(" else []). set (trail := if brackets then T ")" else []).
  pose proof (lt_text lead (sep isAnd) 0 ts trail Fu) as TT.
  assert (template (lt_pieces lead (sep isAnd) 0 ts trail)) as Tm.
  { apply lt_template; [| | |lia|exact B]; unfold lead, trail; destruct brackets, isAnd; vm_compute; intuition discriminate. }
  assert (LK := lt_lookup (sep isAnd) 0 ts Fu ltac:(lia) B).
  destruct (list_template (sep isAnd) 0 ts) as [t r]. cbn [fst snd] in *.
  exists (filled (fun k => lookup k r) [] (lt_pieces lead (sep isAnd) 0 ts trail)). split.
  - replace (if brackets then L "(" ++ t ++ L ")" else t) with (template_text (lt_pieces lead (sep isAnd) 0 ts trail)).
    + apply C36_filled; [exact Tm|]. intros k I. apply lt_holes in I as (i & x & E & ->). rewrite (LK _ _ E).
      apply nonnil. unfold full in Fu. rewrite Forall_forall in Fu. apply Fu. now apply nth_error_In in E.
    + rewrite TT. unfold lead, trail. destruct brackets; [reflexivity|apply app_nil_r].
  - intros b y. rewrite (lt_lay (fun k => lookup k r) isAnd trail ts us F N) with (P := lead).
    + unfold lead, trail, paren. destruct brackets; rewrite <- ?app_assoc; reflexivity.
    + unfold trail. destruct brackets; vm_compute; intuition discriminate.
    + intro z. unfold lead, lead_blank. destruct brackets, b; reflexivity.
    + lia.
    + exact LK.
Qed.
