(** The text of generated enum definitions. *)
From Coq Require Import Lia Sorted Permutation ZifyBool ZifyNat.
From Verif.Model Require Import Base Common Xml Units Field FieldCommon IntField EnumField GenUtil GenComms CommsInt CommsEnum.
From Verif.Spec Require Import Texts Ints Versions IntSpec EnumSpec GenSpec NameSpec CppSpec CondCode BodySpec EnumCode.
From Verif.Proofs Require Import BaseFacts CommonFacts IntFacts RangeFacts IntInv EnumInv GenFacts NameFacts CommsIntFacts CommsOptFacts TemplateFacts WrapFacts CondTextFacts CondMeanFacts.
From Verif.Props Require Import PTemplate PCondCode.
Local Open Scope string_scope. Local Open Scope Z_scope. Local Open Scope list_scope.

(** ** Rows *)
Definition whole (rows : list txt) : txt := concat (map (fun r => r ++ [newline]) rows).
Lemma whole_app a b : whole (a ++ b) = whole a ++ whole b.
Proof. unfold whole. rewrite map_app, concat_app. reflexivity. Qed.
(** the text, followed by the end of the line, consists of these rows *)
Definition rows_are (t : txt) (rows : list txt) : Prop := forall y, unindent true (t ++ newline :: y) = whole rows ++ unindent true y.
Lemma rows_flat c t : flat (c :: t) -> c <> " "%char -> rows_are (c :: t) [c :: t].
Proof.
  intros F N y. rewrite (lay_flat c t F N true). cbn [unindent]. unfold whole. cbn [map concat]. rewrite app_nil_r, <- app_assoc. f_equal.
Qed.
Lemma rows_more t rows u rows' : rows_are t rows -> rows_are u rows' -> rows_are (t ++ newline :: u) (rows ++ rows').
Proof. intros A B y. rewrite <- app_assoc. cbn [app]. rewrite A, B, whole_app, <- app_assoc. reflexivity. Qed.
Lemma rows_join ts rs : Forall2 rows_are ts rs -> ts <> [] -> rows_are (join [newline] ts) (concat rs).
Proof.
  induction 1 as [|t r ts rs H F IH]; [congruence|]. intros _. destruct ts as [|t' ts].
  - inversion F; subst. cbn [join concat]. rewrite app_nil_r. exact H.
  - change (join [newline] (t :: t' :: ts)) with (t ++ [newline] ++ join [newline] (t' :: ts)). cbn [concat app].
    apply rows_more; [exact H|]. apply IH. discriminate.
Qed.
Lemma rows_nil : rows_are [] [[]].
Proof. intros y. reflexivity. Qed.

(** ** Comments *)
Definition tame (t : txt) : Prop := ~ In "\"%char t.
Lemma tame_app a b : tame a -> tame b -> tame (a ++ b).
Proof. unfold tame. rewrite in_app_iff. tauto. Qed.
Lemma tame_sub a b c : tame (a ++ b ++ c) -> tame b.
Proof. unfold tame. rewrite !in_app_iff. tauto. Qed.
Lemma tame_lit a : forallb (fun c => negb (Ascii.eqb c "\")) a = true -> tame a.
Proof. intros H I. rewrite forallb_forall in H. apply H in I. discriminate I. Qed.
Lemma flat_dec a : forallb (fun c => negb (Ascii.eqb c newline)) a = true -> flat a.
Proof. intros H I. rewrite forallb_forall in H. apply H in I. discriminate I. Qed.
(** rows of a documentation: the first one behind the value, the others commented *)
Lemma unindent_nl y : unindent true (newline :: y) = newline :: unindent true y.
Proof. reflexivity. Qed.
Lemma doc_rows p ps y : flat p -> Forall flat ps ->
  unindent false (join ([nl] ++ L " ///  ") (p :: ps) ++ " "%char :: newline :: y) =
  match ps with
  | [] => p ++ T " " ++ newline :: unindent true y
  | _ => p ++ newline :: whole (map (fun r => T "///  " ++ r) (removelast ps) ++ [T "///  " ++ last ps [] ++ T " "]) ++ unindent true y
  end.
Proof.
  intros F Fs. revert p F. induction Fs as [|q ps Fq Fs IH]; intros p F.
  - cbn [join]. rewrite unindent_flat by exact F. reflexivity.
  - rewrite join_cons2 by discriminate. rewrite <- !app_assoc. rewrite unindent_flat by exact F. f_equal.
    change ([nl] ++ L " ///  " ++ join ([nl] ++ L " ///  ") (q :: ps) ++ " "%char :: newline :: y)
      with (newline :: " "%char :: T "///  " ++ join ([nl] ++ L " ///  ") (q :: ps) ++ " "%char :: newline :: y).
    assert (forall z, unindent false (newline :: " "%char :: T "///  " ++ z) = newline :: T "///  " ++ unindent false z) as -> by reflexivity.
    f_equal. rewrite IH by exact Fq. destruct ps as [|r ps].
    + unfold whole. cbn [removelast map app last concat]. rewrite app_nil_r, <- !app_assoc. reflexivity.
    + change (removelast (q :: r :: ps)) with (q :: removelast (r :: ps)). change (last (q :: r :: ps) []) with (last (r :: ps) []).
      set (R := removelast (r :: ps)). cbn [map app]. unfold whole. cbn [map concat]. rewrite <- !app_assoc. reflexivity.
Qed.
Lemma lines_flat t : Forall flat (lines_of t).
Proof.
  unfold lines_of. pose proof (cut_free (Ascii.eqb newline) t) as F. eapply Forall_impl; [|exact F]. intros l H I. cbv beta in H.
  rewrite forallb_forall in H. apply H in I. discriminate I.
Qed.
Lemma lines_tame t : tame t -> Forall tame (lines_of t).
Proof.
  intros H. apply Forall_forall. intros l I. unfold lines_of in I. apply cut_In in I as (a & b & ->). eapply tame_sub, H.
Qed.
Lemma replace_nl d : genStrReplace d [nl] ([nl] ++ L " ///  ") = Ok (join ([nl] ++ L " ///  ") (lines_of d)).
Proof. apply replace_spec; [discriminate|apply pieces_lines]. Qed.
Lemma comment_lead t : flat t -> tame t -> comment (T "///" ++ t).
Proof.
  intros F K. exists (T "/" ++ t). split; [reflexivity|]. split.
  - intros [I|I]; [discriminate I|exact (K I)].
  - intros [I|I]; [discriminate I|exact (F I)].
Qed.
(** the comment begins with a slash or the row is empty *)
Definition doc_start (d : txt) : Prop := exists p ps, lines_of d = p :: ps /\ (p = [] \/ exists r, p = T " ///" ++ r).
Lemma start_lit r : doc_start (L " ///" ++ r).
Proof.
  unfold doc_start. unfold lines_of. cbn [L list_ascii_of_string app cut_at]. cbn [Ascii.eqb Bool.eqb newline andb].
  destruct (cut_at (Ascii.eqb newline) r) as [|w ws]; eexists _, _; (split; [reflexivity|]); right; [exists []|exists w]; reflexivity.
Qed.
Lemma start_more d x : doc_start d -> doc_start (d ++ nl :: x).
Proof.
  intros (p & ps & E & H). unfold doc_start. rewrite lines_app, E. eexists _, _. split; [reflexivity|exact H].
Qed.
Lemma start_wrapped s r : wraps 40 true (L " ///< " ++ s) r -> doc_start r /\ (tame s -> tame r).
Proof.
  intros W. apply wraps_drop in W. split.
  - cbn [L list_ascii_of_string app] in W. inversion W as [|? a ? r1 A1 W1]; subst. inversion W1 as [|? b ? r2 A2 W2]; subst.
    inversion W2 as [|? c ? r3 A3 W3]; subst. inversion W3 as [|? d ? r4 A4 W4]; subst.
    assert (b = "/"%char) as -> by (destruct A2 as [<-|[A2 _]]; [reflexivity|discriminate A2]).
    assert (c = "/"%char) as -> by (destruct A3 as [<-|[A3 _]]; [reflexivity|discriminate A3]).
    assert (d = "/"%char) as -> by (destruct A4 as [<-|[A4 _]]; [reflexivity|discriminate A4]).
    destruct A1 as [<-|[_ ->]]; [apply (start_lit r4)|]. unfold doc_start, lines_of. eexists [], _. split; [|now left]. cbn [cut_at]. reflexivity.
  - intros K. assert (K' : tame (L " ///< " ++ s)) by (apply tame_app; [apply tame_lit; reflexivity|exact K]). revert K'. clear K.
    induction W as [|a b l l' H W IH]; [auto|]. intros K [I|I]; [|apply IH; [|exact I]; intros J; apply K; now right].
    subst b. destruct H as [->|[_ H]]; [apply K; now left|discriminate H].
Qed.

(** ** One value *)
Definition value_pieces1 : list piece := [Text []; Hole (T "NAME"); Text (T " = "); Hole (T "VALUE"); Text (T ", ")].
Lemma value_template1 : template value_pieces1.
Proof.
  unfold value_pieces1. repeat (constructor; [apply plain_no_hash, in_b_not; vm_compute; reflexivity|apply name_no_hash, in_b_not; vm_compute; reflexivity|]).
  constructor. apply end_no_hash, in_b_not. vm_compute. reflexivity.
Qed.
Lemma snoc_last {A} (l : list A) x d : last (l ++ [x]) d = x.
Proof. induction l as [|y l IH]; [reflexivity|]. cbn [app last]. destruct (l ++ [x]) eqn:E; [destruct l; discriminate|exact IH]. Qed.
Lemma value_line_text name value doc : flat name -> name <> [] -> flat value -> value <> [] -> ~ In "#"%char name -> ~ In "#"%char value -> doc <> [] ->
  value_line name value doc = Ok (name ++ T " = " ++ value ++ T "," ++ indented (length (name ++ T " = " ++ value ++ T ",")) doc ++ T " ").
Proof.
  intros Fn Nn Fv Nv Hn Hv Nd. unfold value_line. change value_templ with (template_text value_pieces1).
  set (repl := [(L "NAME", name); (L "VALUE", value)]). rewrite C36_filled; [|exact value_template1|].
  2: { intros k I. cbn [holes value_pieces1 In] in I. repeat destruct I as [<-|I]; try contradiction; assumption. }
  cbn [bind]. rewrite C36_substituted.
  2: { intros k I. cbn [holes value_pieces1 In] in I. repeat destruct I as [<-|I]; try contradiction; assumption. }
  assert (E : name ++ T " = " ++ value ++ T ", " ++ [] = (name ++ T " = " ++ value ++ T ",") ++ [" "%char]).
  { rewrite <- !app_assoc. reflexivity. }
  replace (substituted (fun k => lookup k repl) value_pieces1) with ((name ++ T " = " ++ value ++ T ",") ++ [" "%char]) by (rewrite <- E; reflexivity).
  rewrite removelast_last, snoc_last.
  set (front := name ++ T " = " ++ value ++ T ",") in *.
  assert (Ff : ~ In "#"%char front).
  { unfold front. rewrite !in_app_iff. intros [I|[I|[I|I]]]; [exact (Hn I)| |exact (Hv I)|]; revert I; apply in_b_not; vm_compute; reflexivity. }
  assert (Fl : flat front).
  { unfold front. repeat apply flat_app; first [exact Fn|exact Fv|apply flat_dec; reflexivity]. }
  set (ps := [Text front; Hole (T "DOC"); Text (T " ")]).
  change (front ++ L "#^#DOC#$#" ++ [" "%char]) with (template_text ps).
  rewrite C36_filled.
  - cbn [filled ps app]. change (lookup (T "DOC") [(L "DOC", doc)]) with doc. unfold column. rewrite (lines_no_nl front Fl). cbn [last].
    unfold front. rewrite <- !app_assoc. reflexivity.
  - constructor; [apply plain_no_hash, Ff|apply name_no_hash, in_b_not; vm_compute; reflexivity|]. constructor. apply end_no_hash, in_b_not. vm_compute. reflexivity.
  - intros k [<-|[]]. exact Nd.
Qed.
Lemma value_rows name value doc v c0 n0 : name = c0 :: n0 -> c0 <> " "%char -> flat name -> ~ In "#"%char name -> constant value v ->
  flat value -> ~ In "#"%char value -> value <> [] -> doc_start doc -> tame doc -> doc <> [] ->
  exists line rows, value_line name value (join ([nl] ++ L " ///  ") (lines_of doc)) = Ok line /\ rows_are line rows /\
    forall more vs, enumerators more vs -> enumerators (rows ++ more) ((name, v) :: vs).
Proof.
  intros En Nb Fn Hn Cv Fv Hv Nv (p & ps & Ed & St) Kd Nd.
  pose proof (lines_flat doc) as LF. pose proof (lines_tame doc Kd) as LT. rewrite Ed in LF, LT.
  inversion LF as [|? ? Fp Fps]; subst. inversion LT as [|? ? Tp Tps]; subst.
  set (D := join ([nl] ++ L " ///  ") (lines_of doc)). 
  assert (ND : D <> []).
  { unfold D. rewrite Ed. destruct ps as [|q ps]; [|rewrite join_cons2 by discriminate; destruct p; discriminate].
    cbn [join]. intros ->. apply Nd. rewrite <- (lines_join doc), Ed. reflexivity. }
  eexists. exists ((match ps with
             | [] => [(c0 :: n0) ++ T " = " ++ value ++ T "," ++ p ++ T " "]
             | _ => [(c0 :: n0) ++ T " = " ++ value ++ T "," ++ p] ++ map (fun r => T "///  " ++ r) (removelast ps) ++ [T "///  " ++ last ps [] ++ T " "]
             end)).
  split; [apply value_line_text; auto; discriminate|]. split.
  - intros y.
    replace (((c0 :: n0) ++ T " = " ++ value ++ T "," ++ indented (length ((c0 :: n0) ++ T " = " ++ value ++ T ",")) D ++ T " ") ++ newline :: y)
      with (((c0 :: n0) ++ T " = " ++ value ++ T ",") ++ indented (length ((c0 :: n0) ++ T " = " ++ value ++ T ",")) D ++ T " " ++ newline :: y)
      by (rewrite <- !app_assoc; reflexivity).
    set (front := (c0 :: n0) ++ T " = " ++ value ++ T ",").
    assert (Fl : flat front).
    { unfold front. repeat apply flat_app; first [exact Fn|exact Fv|apply flat_dec; reflexivity]. }
    assert (unindent true (front ++ indented (length front) D ++ T " " ++ newline :: y) = front ++ unindent false (D ++ T " " ++ newline :: y)) as ->.
    { change front with (c0 :: (n0 ++ T " = " ++ value ++ T ",")) in Fl |- *. rewrite (lay_flat _ _ Fl Nb true). f_equal. apply unindent_indented. }
    unfold D. rewrite Ed. change (T " " ++ newline :: y) with (" "%char :: newline :: y). rewrite doc_rows by assumption.
    unfold front. destruct ps as [|q ps].
    + unfold whole. cbn [map concat]. rewrite app_nil_r, <- !app_assoc. reflexivity.
    + set (M := map (fun r => T "///  " ++ r) (removelast (q :: ps)) ++ [T "///  " ++ last (q :: ps) [] ++ T " "]). rewrite (whole_app [_] M). change (whole [(c0 :: n0) ++ T " = " ++ value ++ T "," ++ p]) with ((((c0 :: n0) ++ T " = " ++ value ++ T "," ++ p) ++ [newline]) ++ []). rewrite app_nil_r. rewrite <- !app_assoc. reflexivity.
  - intros more vs M.
    assert (R : forall q, flat q -> tame q -> comment (T "///  " ++ q)).
    { intros q Fq Tq. apply (comment_lead (T "  " ++ q)); [apply flat_app; [apply flat_dec; reflexivity|exact Fq]|apply tame_app; [apply tame_lit; reflexivity|exact Tq]]. }
    assert (Cs : forall l, Forall flat l -> Forall tame l -> forall more vs, enumerators more vs -> enumerators (map (fun r => T "///  " ++ r) l ++ more) vs).
    { intros l. induction 1 as [|a l Fa F1 IH]; intros Tl m w M'; [exact M'|]. inversion Tl; subst. cbn [map app]. apply en_comment; [apply R; assumption|now apply IH]. }
    assert (Tr : forall q, trailing q -> trailing (q ++ T " ")).
    { intros q [k [->|(c & -> & r & -> & B1 & B2)]].
      - exists (S k). left. rewrite <- (Nat.add_1_r k), repeat_app. reflexivity.
      - exists k. right. exists ((T "//" ++ r) ++ T " "). split; [now rewrite <- app_assoc|]. exists (r ++ T " "). split; [now rewrite <- app_assoc|].
        rewrite !in_app_iff. cbn. split; intros [I|[I|[]]]; try discriminate I; auto. }
    assert (Pt : trailing p).
    { destruct St as [->|[r ->]]; [exists 0%nat; now left|]. exists 1%nat. right. exists (T "///" ++ r). split; [reflexivity|]. apply comment_lead.
      - intros I. apply Fp. apply in_app_iff. now right.
      - intros I. apply Tp. apply in_app_iff. now right. }
    destruct ps as [|q ps].
    + cbn [app]. apply (en_value (c0 :: n0) value v (p ++ T " ")); auto.
    + rewrite <- !app_assoc. cbn [app]. apply (en_value (c0 :: n0) value v p); auto.
      assert (I : exists l x, q :: ps = l ++ [x]) by (destruct (exists_last (l := q :: ps)) as (l & x & E); [discriminate|eauto]).
      destruct I as (l & x & E). rewrite E in *. rewrite removelast_last, snoc_last. apply Forall_app in Fps as [F1 F2]. apply Forall_app in Tps as [T1 T2].
      inversion F2; subst. inversion T2; subst. apply Cs; auto. apply en_comment; [|exact M]. apply R.
      * apply flat_app; [assumption|apply flat_dec; reflexivity].
      * apply tame_app; [assumption|apply tame_lit; reflexivity].
Qed.
