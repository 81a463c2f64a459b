(** Facts for the conditions in generated code. *)
From Coq Require Import Lia.
From Verif.Model Require Import Base Common Xml Units Field FieldCommon IntField OptCond GenUtil GenComms CommsInt CommsCond.
From Verif.Spec Require Import Texts Ints FieldSpec GenSpec CppSpec CondCode CondTyping.
From Verif.Proofs Require Import BaseFacts CommonFacts IntFacts FieldInv GenFacts TemplateFacts CommsIntFacts.
From Verif.Props Require Import PTemplate.
Local Open Scope string_scope.
Local Open Scope Z_scope.
Local Open Scope list_scope.

(** ** Navigation *)
Definition step {A} (K : list velem -> field -> str -> str -> A) (none : A) (ge : gen_env) (up : list velem) (f : field) (acc pre mem inner : str)
    (ms : list field) : A :=
  let (first, rest) := first_seg acc in
  match find (fun m => str_eqb (f_name m) first) ms with
  | None => none
  | Some m => K (velem_of f :: up) m (rest_or_nil rest) (pre ++ mem ++ genAccessName (f_name m) ++ inner)
  end.
Definition vo (ge : gen_env) up f (s : str) : str := if version_optional ge up f then s else [].

Definition vbody ge up f acc pre : str :=
  match f with
  | FBitfield _ _ ms _ | FBundle _ ms _ _ =>
      if is_nil acc then pre ++ L ".getValue()" else step (value_access ge) unexpected ge up f acc pre (L ".field_") (L "()") ms
  | FOptional _ _ own g _ =>
      if is_nil acc then pre ++ L ".getValue()"
      else value_access ge (if own then velem_of f :: up else []) g (rem_acc acc) (pre ++ L ".field()")
  | FRef _ _ t => value_access ge [] t acc pre
  | FSet _ s => if is_nil acc then pre ++ L ".getValue()"
                else match assoc acc (s_bits s) with None => unexpected | Some _ => pre ++ L ".getBitValue_" ++ acc ++ L "()" end
  | _ => pre ++ L ".getValue()"
  end.
Definition sbody ge up f acc pre : str :=
  match f with
  | FBitfield _ _ ms _ | FBundle _ ms _ _ =>
      if is_nil acc then [] else step (size_access ge) unexpected ge up f acc pre (L ".field_") (L "()") ms
  | FOptional _ _ own g _ =>
      if is_nil acc then [] else size_access ge (if own then velem_of f :: up else []) g (rem_acc acc) (pre ++ L ".field()")
  | FRef _ _ t => size_access ge [] t acc pre
  | FString _ _ _ | FData _ _ _ | FList _ _ _ _ _ _ _ => pre ++ L ".getValue().size()"
  | _ => []
  end.
Definition cbody ge up f acc pre : str :=
  match f with
  | FBitfield _ _ ms _ | FBundle _ ms _ _ =>
      if is_nil acc then pre ++ L "ValueType" else step (cast_type ge) unexpected ge up f acc pre (L "Field_") (L "::") ms
  | FOptional _ _ own g _ =>
      if is_nil acc then pre ++ L "ValueType"
      else cast_type ge (if own then velem_of f :: up else []) g (rem_acc acc) (pre ++ L "Field::")
  | FRef _ _ t => cast_type ge [] t acc pre
  | FString _ _ _ => []
  | _ => pre ++ L "ValueType"
  end.
Definition obody ge up f acc pre : list str :=
  match f with
  | FBitfield _ _ ms _ | FBundle _ ms _ _ =>
      if is_nil acc then [] else step (opt_checks ge) [] ge up f acc pre (L ".field_") (L "()") ms
  | FOptional _ _ own g _ =>
      (pre ++ L ".doesExist()") ::
      (if is_nil acc then [] else opt_checks ge (if own then velem_of f :: up else []) g (rem_acc acc) (pre ++ L ".field()"))
  | FRef _ _ t => opt_checks ge [] t acc pre
  | _ => []
  end.
Definition lbody f acc : option field :=
  match f with
  | FBitfield _ _ ms _ | FBundle _ ms _ _ =>
      if is_nil acc then Some f
      else let (first, rest) := first_seg acc in
           match find (fun m => str_eqb (f_name m) first) ms with None => None | Some m => acc_leaf m (rest_or_nil rest) end
  | FOptional _ _ _ g _ => if is_nil acc then Some f else acc_leaf g (rem_acc acc)
  | FRef _ _ t => acc_leaf t acc
  | _ => Some f
  end.
Ltac members :=
  unfold step; cbv zeta;
  match goal with |- context [version_optional ?a ?b ?c] => generalize (velem_of c), (version_optional a b c); intros v0 b0 end;
  match goal with
  | |- context [is_nil ?a] => destruct (is_nil a); [reflexivity|]
  end;
  match goal with |- context [first_seg ?a] => destruct (first_seg a) as [? ?] end;
  try match goal with |- _ ++ _ = _ ++ _ => f_equal end;
  match goal with ms : list field |- _ => induction ms as [|m ms IH]; cbn [find]; [reflexivity|];
    destruct (str_eqb (f_name m) _); [reflexivity|exact IH] end.
Lemma value_eq ge up f acc p : value_access ge up f acc p = vbody ge up f acc (p ++ vo ge up f (L ".field()")).
Proof. destruct f; cbn [value_access vbody]; unfold vo; try reflexivity; members. Qed.
Lemma size_eq ge up f acc p : size_access ge up f acc p = sbody ge up f acc (p ++ vo ge up f (L ".field()")).
Proof. destruct f; cbn [size_access sbody]; unfold vo; try reflexivity; members. Qed.
Lemma cast_eq ge up f acc p : cast_type ge up f acc p = cbody ge up f acc (p ++ vo ge up f (L "Field::")).
Proof. destruct f; cbn [cast_type cbody]; unfold vo; try reflexivity; members. Qed.
Lemma checks_eq ge up f acc p : opt_checks ge up f acc p =
  (if version_optional ge up f then [p ++ L ".doesExist()"] else []) ++ obody ge up f acc (p ++ vo ge up f (L ".field()")).
Proof. destruct f; cbn [opt_checks obody]; unfold vo; try reflexivity; members. Qed.
Lemma leaf_eq f acc : acc_leaf f acc = lbody f acc.
Proof.
  destruct f; cbn [acc_leaf lbody]; try reflexivity; (destruct (is_nil acc); [reflexivity|]); destruct (first_seg acc) as [first rest];
    generalize dependent ms; intro ms; induction ms as [|m ms IH]; cbn [find]; try reflexivity;
    destruct (str_eqb (f_name m) _); try reflexivity; exact IH.
Qed.

Definition typed_members ge up := fix go (ms : list field) (vs : list (txt * dval)) : Prop :=
  match ms, vs with
  | [], [] => True
  | m :: ms', (n, w) :: vs' => n = f_name m /\ typed ge up m w /\ go ms' vs'
  | _, _ => False
  end.
Definition tbody ge up f (v : dval) : Prop :=
  match f, v with
  | FInt _ s, VNum ty names z => ty = genCppIntTypeFor (i_type s) (i_length s) /\ cpp_holds ty z /\ named_values (i_type s) (i_specials s) names
  | FEnum _ s, VNum ty names z => ty = genCppIntTypeFor (en_type s) (en_length s) /\ cpp_holds ty z /\ named_values (en_type s) (en_values s) names
  | FSet _ s, VBits bs => Forall (fun b => In (fst b) (map fst (s_bits s))) bs
  | FString _ _ _, VText _ => True
  | FData _ _ _, VSeq n | FList _ _ _ _ _ _ _, VSeq n => 0 <= n < 2 ^ 64
  | FBitfield _ _ ms _, VMembers vs | FBundle _ ms _ _, VMembers vs => typed_members ge (velem_of f :: up) ms vs
  | FOptional _ _ own g _, VOptional _ n w => n = f_name g /\ typed ge (if own then velem_of f :: up else []) g w
  | FRef _ _ t, _ => typed ge [] t v
  | FFloat _ _, VOther | FVariant _ _ _, VOther => True
  | _, _ => False
  end.
Lemma typed_eq ge up f v : typed ge up f v =
  if version_optional ge up f then match v with VVersioned _ w => tbody ge up f w | _ => False end else tbody ge up f v.
Proof. destruct f; reflexivity. Qed.

Lemma word_seg n q : word n -> first_seg (join (T ".") (n :: q)) = (n, match q with [] => None | _ => Some (join (T ".") q) end).
Proof.
  intros [_ W]. unfold first_seg.
  assert (~ In "."%char n) as N.
  { intro I. rewrite Forall_forall in W. destruct (W _ I) as [H | H]; vm_compute in H; repeat (destruct H as [H | H]; [discriminate|]); exact H. }
  destruct q as [|m q].
  - cbn [join]. now rewrite (proj2 (split_at_None "."%char n) N).
  - change (join (T ".") (n :: m :: q)) with (n ++ "."%char :: join (T ".") (m :: q)).
    assert (split_at "."%char (n ++ "."%char :: join (T ".") (m :: q)) = Some (n, join (T ".") (m :: q))) as ->
      by (apply CommonFacts.split_at_spec; auto). reflexivity.
Qed.
Lemma join_nil q : match q with [] => None | _ => Some (join (T ".") q) end = None \/
  match q with [] => None | _ => Some (join (T ".") q) end = Some (join (T ".") q).
Proof. destruct q; auto. Qed.
Lemma rest_join q : rest_or_nil (match q with [] => None | _ => Some (join (T ".") q) end) = join (T ".") q.
Proof. destruct q; reflexivity. Qed.
Lemma word_join n q : word n -> is_nil (join (T ".") (n :: q)) = false.
Proof. intros [N _]. destruct n; [congruence|]. destruct q; reflexivity. Qed.
Lemma rem_join n q : word n -> rem_acc (join (T ".") (n :: q)) = join (T ".") q.
Proof. intro W. unfold rem_acc. rewrite word_seg by exact W. apply rest_join. Qed.

Lemma access_accessor n : n <> [] -> accessor n (genAccessName n).
Proof.
  destruct n as [|c r]; [congruence|]. intros _. cbn [genAccessName].
  assert ((exists i, nth_error upper_letters i = Some c /\ nth_error lower_letters i = Some (tolower c)) \/
          (tolower c = c /\ ~ In c upper_letters)) as [(i & A & B) | (E & N)].
  { destruct (in_dec ascii_dec c upper_letters) as [I|I].
    - left. apply In_nth_error in I as [i I]. exists i. split; [exact I|].
      revert I. do 26 (destruct i as [|i]; [intro I; injection I as <-; reflexivity|]). destruct i; discriminate.
    - right. split; [|exact I]. destruct c as [b0 b1 b2 b3 b4 b5 b6 b7]. revert I.
      destruct b0, b1, b2, b3, b4, b5, b6, b7; intro I; try reflexivity; exfalso; apply I; vm_compute; tauto. }
  - left. exists i, c, (tolower c), r. auto.
  - right. exists c, r. rewrite E. auto.
Qed.
Lemma accessor_det n x y : accessor n x -> accessor n y -> x = y.
Proof.
  intros [(i & c & c' & r & -> & -> & A & B) | (c & r & -> & -> & N)] [(j & d & d' & s & E & -> & A' & B') | (d & s & E & -> & N')].
  - injection E as <- <-. f_equal. assert (i = j) as <-; [|congruence].
    assert (NoDup upper_letters) as ND. { vm_compute. repeat constructor; vm_compute; intuition discriminate. }
    apply (proj1 (NoDup_nth_error _) ND); [apply nth_error_Some; congruence|congruence].
  - injection E as <- <-. exfalso. apply N'. now apply nth_error_In in A.
  - injection E as <- <-. exfalso. apply N. now apply nth_error_In in A'.
  - reflexivity.
Qed.
Lemma first_named_In {A} n (l : list (txt * A)) v : first_named n l = Some v -> In (n, v) l.
Proof.
  induction l as [|[m w] l IH]; cbn; [discriminate|]. destruct (list_eq_dec ascii_dec m n) as [->|]; [intros [= ->]; auto|auto].
Qed.

Fixpoint acc_words (a : acc) : Prop :=
  match a with AField x => word x | AMember a x => acc_words a /\ word x | AInner a => acc_words a end.
Lemma access_word n : word n -> word (genAccessName n).
Proof.
  intros [N F]. destruct n as [|c r]; [congruence|]. inversion F as [|? ? H1 H2]; subst. split; [discriminate|].
  constructor; [|exact H2].
  destruct (access_accessor (c :: r) ltac:(discriminate)) as [(i & d & d' & r' & E1 & E2 & _ & B) | (d & r' & E1 & E2 & _)];
    cbn [genAccessName] in E2.
  - assert (tolower c = d') as -> by congruence. left. apply nth_error_In in B. unfold letter_or_underscore. vm_compute in B |- *. tauto.
  - assert (tolower c = c) as -> by congruence. exact H1.
Qed.
Definition own_present (w : dval) : bool := match w with VOptional b _ _ => b | _ => true end.
Definition all_true (bs : list bool) : bool := forallb (fun b => b) bs.
(** what the walk along a path gives *)
Inductive found env ge (w : dval) (pres : bool) (tail : txt) (va sa ca : txt) (oc : list txt) (lf : option field) : Prop :=
| Found f up a cs bs :
  tbody ge up f w -> (forall c b t, f <> FRef c b t) -> acc_words a -> Forall acc_words cs ->
  obj env a w -> Forall2 (fun c b => value env (XExists c) b) cs bs ->
  pres = all_true bs && own_present w ->
  va = vbody ge up f tail (print_acc a) ->
  sa = sbody ge up f tail (print_acc a) ->
  ca = cbody ge up f tail (print_class a ++ T "::") ->
  oc = map (fun c => print (XExists c)) cs ++ obody ge up f tail (print_acc a) ->
  lf = lbody f tail -> found env ge w pres tail va sa ca oc lf.
Lemma first_find ge up n ms vs v : typed_members ge up ms vs -> first_named n vs = Some v ->
  exists m, find (fun m => str_eqb (f_name m) n) ms = Some m /\ In m ms /\ f_name m = n /\ typed ge up m v.
Proof.
  revert vs. induction ms as [|m ms IH]; intros [|[k w] vs]; cbn; try tauto; [discriminate|].
  intros (-> & Tm & Ts). destruct (list_eq_dec ascii_dec (f_name m) n) as [E|N].
  - intros [= <-]. exists m. rewrite (proj2 (str_eqb_eq _ _) E). auto.
  - intro F. destruct (IH _ Ts F) as (m' & A & B & C & D). exists m'.
    destruct (str_eqb (f_name m) n) eqn:X; [apply str_eqb_eq in X; congruence|]. auto.
Qed.
Lemma accessed_first ms n v : accessible (VMembers ms) -> n <> [] -> first_named n ms = Some v -> accessed ms (genAccessName n) v.
Proof.
  intros A N F. inversion A as [| | | | | | |? _ U]; subst. apply first_named_In in F. exists n. split; [exact F|].
  split; [now apply access_accessor|]. intros n' v' I X. apply (U n v n' v' (genAccessName n)); auto. now apply access_accessor.
Qed.
Lemma accessible_first ms n v : accessible (VMembers ms) -> first_named n ms = Some v -> accessible v.
Proof.
  intros A F. inversion A as [| | | | | | |? Fa _]; subst. apply first_named_In in F. rewrite Forall_forall in Fa. exact (Fa _ F).
Qed.
Lemma word_nonnil n : word n -> n <> []. Proof. now intros []. Qed.

Definition walks env ge f : Prop := forall up v path pres w a tail,
  typed ge up f v -> accessible v -> reach v path pres w -> obj env a v -> Forall word path -> acc_words a ->
  let acc := join (T ".") (path ++ tail) in
  found env ge w pres (join (T ".") tail) (value_access ge up f acc (print_acc a)) (size_access ge up f acc (print_acc a))
    (cast_type ge up f acc (print_class a ++ T "::")) (opt_checks ge up f acc (print_acc a)) (acc_leaf f acc).
Definition walks_body env ge f : Prop := forall up v path pres w a tail,
  tbody ge up f v -> accessible v -> reach v path pres w -> obj env a v -> Forall word path -> acc_words a ->
  let acc := join (T ".") (path ++ tail) in
  found env ge w pres (join (T ".") tail) (vbody ge up f acc (print_acc a)) (sbody ge up f acc (print_acc a))
    (cbody ge up f acc (print_class a ++ T "::")) (obody ge up f acc (print_acc a)) (lbody f acc).
Lemma walks_wrap env ge f : walks_body env ge f -> walks env ge f.
Proof.
  intros WB up v path pres w a tail Ty Ac R O Wp Wa acc. rewrite typed_eq in Ty.
  rewrite value_eq, size_eq, cast_eq, checks_eq, leaf_eq. unfold vo. destruct (version_optional ge up f).
  - destruct v as [| | | | | |b v|]; try contradiction.
    inversion R as [| | | | | | |b' v' p' b0 w' R0|]; subst. inversion Ac as [| | | | |? ? Ac0| |]; subst.
    assert (obj env (AInner a) v) as O' by (eapply obj_versioned; eauto).
    destruct (WB up v path b0 w (AInner a) tail Ty Ac0 R0 O' Wp Wa) as [f' up' a' cs bs T1 T2 W1 W2 T3 T4 T5 T6 T7 T8 T9 T10].
    apply Found with (f := f') (up := up') (a := a') (cs := a :: cs) (bs := b :: bs); auto.
    + constructor; [|exact T4]. eapply value_versioned; eauto.
    + cbn [all_true forallb]. fold (all_true bs). rewrite T5. now rewrite andb_assoc.
    + rewrite <- T8. f_equal. cbn [print_class]. rewrite <- !app_assoc. reflexivity.
    + cbn [map]. rewrite <- app_comm_cons. cbn [app]. f_equal. exact T9.
  - rewrite !app_nil_r. cbn [app]. exact (WB up v path pres w a tail Ty Ac R O Wp Wa).
Qed.
Lemma found_here env ge f up w a tail : tbody ge up f w -> (forall c b t, f <> FRef c b t) -> obj env a w -> acc_words a ->
  found env ge w (own_present w) (join (T ".") tail) (vbody ge up f (join (T ".") tail) (print_acc a)) (sbody ge up f (join (T ".") tail) (print_acc a))
    (cbody ge up f (join (T ".") tail) (print_class a ++ T "::")) (obody ge up f (join (T ".") tail) (print_acc a)) (lbody f (join (T ".") tail)).
Proof. intros. apply Found with (f := f) (up := up) (a := a) (cs := []) (bs := []); auto. Qed.
Lemma walk env ge : forall f, walks env ge f.
Proof.
  apply field_ind'. intros f IH. apply walks_wrap. intros up v path pres w a tail Ty Ac R O Wp Wa.
  assert (Hm : forall ms vs, (parts f = ms) -> v = VMembers vs -> typed_members ge (velem_of f :: up) ms vs ->
    (forall c b t, f <> FRef c b t) ->
    (forall acc pre, is_nil acc = false -> vbody ge up f acc pre = step (value_access ge) unexpected ge up f acc pre (L ".field_") (L "()") ms /\
       sbody ge up f acc pre = step (size_access ge) unexpected ge up f acc pre (L ".field_") (L "()") ms /\
       cbody ge up f acc pre = step (cast_type ge) unexpected ge up f acc pre (L "Field_") (L "::") ms /\
       obody ge up f acc pre = step (opt_checks ge) [] ge up f acc pre (L ".field_") (L "()") ms /\
       lbody f acc = let (first, rest) := first_seg acc in
           match find (fun m => str_eqb (f_name m) first) ms with None => None | Some m => acc_leaf m (rest_or_nil rest) end) ->
    let acc := join (T ".") (path ++ tail) in
    found env ge w pres (join (T ".") tail) (vbody ge up f acc (print_acc a)) (sbody ge up f acc (print_acc a))
      (cbody ge up f acc (print_class a ++ T "::")) (obody ge up f acc (print_acc a)) (lbody f acc)).
  { intros ms vs Ep -> Tm NR HB acc. rewrite Ep in IH. inversion R as [| | | |ms' | | | |ms' n v' p b w' Fn R0]; subst.
    - exact (found_here env ge f up (VMembers vs) a tail Ty NR O Wa).
    - destruct (first_find _ _ _ _ _ _ Tm Fn) as (m & Fm & Im & Nm & Tv). inversion Wp as [|? ? Wn Wp']; subst.
      assert (is_nil acc = false) as Na by (apply word_join; exact Wn).
      destruct (HB acc (print_acc a) Na) as (H1 & H2 & _ & H4 & H5). destruct (HB acc (print_class a ++ T "::") Na) as (_ & _ & H3 & _ & _).
      rewrite H1, H2, H3, H4, H5. unfold step. unfold acc. cbn [app]. rewrite word_seg by exact Wn. rewrite Fm.
      rewrite rest_join. rewrite Forall_forall in IH. 
      assert (obj env (AMember a (genAccessName (f_name m))) v') as O'
        by (eapply obj_member; [exact O|]; apply accessed_first; auto using word_nonnil).
      assert (forall x, print_acc a ++ L ".field_" ++ genAccessName (f_name m) ++ x = (print_acc a ++ T ".field_" ++ genAccessName (f_name m) ++ x)) as _ by reflexivity.
      pose proof (IH m Im (velem_of f :: up) v' p pres w (AMember a (genAccessName (f_name m))) tail Tv (accessible_first _ _ _ Ac Fn) R0 O' Wp' (conj Wa (access_word _ Wn))) as G.
      cbv zeta in G. cbn [print_acc print_class] in G. rewrite <- !app_assoc in G. rewrite <- !app_assoc. exact G. }
  destruct f; try (destruct v; try contradiction; inversion R; subst; cbn [app];
    exact (found_here env ge _ up _ a tail Ty ltac:(discriminate) O Wa)).
  - destruct v as [| | | |vs| | |]; try contradiction.
    apply (Hm ms vs); auto; [discriminate|]. intros acc0 pre N. cbn [vbody sbody cbody obody lbody]. rewrite N. auto.
  - destruct v as [| | | |vs| | |]; try contradiction.
    apply (Hm ms vs); auto; [discriminate|]. intros acc0 pre N. cbn [vbody sbody cbody obody lbody]. rewrite N. auto.
  - cbn [tbody] in Ty. cbn [vbody sbody cbody obody lbody]. inversion IH as [|? ? H _]; subst.
    exact (H [] v path pres w a tail Ty Ac R O Wp Wa).
  - destruct v as [| | | | |b n v| |]; try contradiction. pose proof Ty as [-> Tg]. inversion IH as [|? ? H _]; subst.
    inversion R as [| | | | | b' n' v' |b' n' v' p b0 w' R0| |]; subst.
    + exact (found_here env ge _ up _ a tail Ty ltac:(discriminate) O Wa).
    + inversion Wp as [|? ? Wn Wp']; subst. cbn [vbody sbody cbody obody lbody]. cbn [app]. rewrite (word_join _ _ Wn), (rem_join _ _ Wn).
      inversion Ac as [| | | |? ? ? Ac0| | |]; subst.
      assert (obj env (AInner a) v) as O' by (eapply obj_wrapped; eauto).
      destruct (H _ v p b0 w (AInner a) tail Tg Ac0 R0 O' Wp' Wa) as [f' up' a' cs bs T1 T2 W1 W2 T3 T4 T5 T6 T7 T8 T9 T10].
      apply Found with (f := f') (up := up') (a := a') (cs := a :: cs) (bs := b :: bs); auto.
      * constructor; [|exact T4]. eapply value_optional; eauto.
      * cbn [all_true forallb]. fold (all_true bs). rewrite T5. now rewrite andb_assoc.
      * rewrite <- T8. f_equal. cbn [print_class]. rewrite <- !app_assoc. reflexivity.
      * cbn [map]. rewrite <- app_comm_cons. f_equal. exact T9.
Qed.
