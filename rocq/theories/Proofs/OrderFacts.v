(** Facts about the order of the layers in the generated stack. *)
From Coq Require Import Lia Sorting.Permutation.
From Verif.Model Require Import Base Common Units Field FieldCommon Message Frame GenOrder.
From Verif.Spec Require Import Texts FrameSpec OrderSpec.
From Verif.Proofs Require Import BaseFacts CommonFacts.
Local Open Scope nat_scope.

(** * positions *)
Definition before (l : list nat) (a b : nat) : Prop := exists l1 l2, l = l1 ++ l2 /\ In a l1 /\ In b l2.
Lemma position_first x l1 l2 : ~ In x l1 -> position x (l1 ++ x :: l2) = Some (length l1).
Proof.
  unfold position. induction l1 as [|y l1 IH]; cbn [app find_idx length In]; intro N; [now rewrite Nat.eqb_refl|].
  destruct (Nat.eqb_spec x y) as [->|]; [tauto|]. rewrite IH by tauto. reflexivity.
Qed.
Lemma position_split l x i : position x l = Some i -> exists l1 l2, l = l1 ++ x :: l2 /\ ~ In x l1 /\ length l1 = i.
Proof.
  unfold position. revert i. induction l as [|y l IH]; intros i; cbn [find_idx]; [discriminate|]. destruct (Nat.eqb_spec x y) as [->|D].
  - intros [= <-]. exists [], l. auto.
  - destruct (find_idx _ l) as [j|]; [|discriminate]. intros [= <-]. destruct (IH j eq_refl) as (l1 & l2 & -> & N & <-). exists (y :: l1), l2. cbn. intuition congruence.
Qed.
Lemma position_in x l : In x l -> exists i, position x l = Some i.
Proof.
  unfold position. induction l as [|y l IH]; intros I; [destruct I|]. cbn [find_idx]. destruct (Nat.eqb_spec x y); [eauto|].
  destruct IH as [i ->]; [destruct I; [congruence|assumption]|]. cbn. eauto.
Qed.
Lemma find_idx_app {A} (h : A -> bool) l1 l2 : find_idx h (l1 ++ l2) = match find_idx h l1 with Some i => Some i | None => option_map (Nat.add (length l1)) (find_idx h l2) end.
Proof.
  induction l1 as [|x l1 IH]; cbn [app find_idx length]; [destruct (find_idx h l2); reflexivity|]. destruct (h x); [reflexivity|]. rewrite IH.
  destruct (find_idx h l1); [reflexivity|]. destruct (find_idx h l2); reflexivity.
Qed.
Lemma find_idx_bound {A} (h : A -> bool) l i : find_idx h l = Some i -> i < length l.
Proof.
  revert i. induction l as [|x l IH]; intro i; cbn [find_idx]; [discriminate|]. destruct (h x); [intros [= <-]; cbn; lia|].
  destruct (find_idx h l) as [j|]; [|discriminate]. intros [= <-]. specialize (IH j eq_refl). cbn. lia.
Qed.
Lemma find_idx_ext {A} (h g : A -> bool) l : (forall x, In x l -> h x = g x) -> find_idx h l = find_idx g l.
Proof. induction l as [|x l IH]; intro E; [reflexivity|]. cbn [find_idx]. rewrite (E x) by now left. rewrite IH; [reflexivity|]. intros; apply E; now right. Qed.
Lemma NoDup_parts {A} (l1 l2 : list A) x : NoDup (l1 ++ l2) -> In x l1 -> In x l2 -> False.
Proof.
  induction l1 as [|y l1 IH]; intros N I J; [destruct I|]. cbn in N. inversion N as [|? ? N1 N2]; subst. destruct I as [->|I]; [|eauto].
  apply N1. apply in_or_app. now right.
Qed.
Lemma before_pos l a b : NoDup l -> before l a b -> exists i j, position a l = Some i /\ position b l = Some j /\ i < j.
Proof.
  intros N (l1 & l2 & -> & A & B). destruct (position_in a l1 A) as [i I]. unfold position in *. exists i. rewrite !find_idx_app, I.
  destruct (find_idx (Nat.eqb b) l1) as [j|] eqn:J.
  - apply (position_split l1 b j) in J as (x & y & -> & _). exfalso. eapply NoDup_parts; [exact N| |exact B]. apply in_or_app. right. now left.
  - destruct (position_in b l2 B) as [j J2]. unfold position in J2. rewrite J2. cbn. eexists. split; [reflexivity|]. split; [reflexivity|].
    apply find_idx_bound in I. lia.
Qed.
Lemma before_asym l a b : NoDup l -> before l a b -> before l b a -> False.
Proof.
  intros N A B. destruct (before_pos _ _ _ N A) as (i & j & I & J & L). destruct (before_pos _ _ _ N B) as (j' & i' & J' & I' & L').
  rewrite I in I'. rewrite J in J'. injection I' as <-. injection J' as <-. lia.
Qed.
Lemma before_irrefl l a : NoDup l -> ~ before l a a.
Proof. intros N A. exact (before_asym _ _ _ N A A). Qed.
Lemma before_mid l1 x l2 y : In y l2 -> before (l1 ++ x :: l2) x y.
Proof. intro I. exists (l1 ++ [x]), l2. rewrite <- app_assoc. split; [reflexivity|]. split; [|exact I]. apply in_or_app. right. now left. Qed.
Lemma before_mid_l l1 x l2 y : In y l1 -> before (l1 ++ x :: l2) y x.
Proof. intro I. exists l1, (x :: l2). split; [reflexivity|]. split; [exact I|now left]. Qed.
Lemma before_app_r l t a b : before l a b -> before (l ++ t) a b.
Proof. intros (l1 & l2 & -> & A & B). exists l1, (l2 ++ t). rewrite app_assoc. split; [reflexivity|]. split; [exact A|]. apply in_or_app. now left. Qed.
Lemma before_insert F1 F2 s a b : a <> s -> b <> s -> before (F1 ++ s :: F2) a b <-> before (F1 ++ F2) a b.
Proof.
  intros Na Nb. split; intros (l1 & l2 & E & A & B); apply app_eq_app in E as (m & [[E1 E2]|[E1 E2]]).
  - subst. exists l1, (m ++ F2). rewrite app_assoc. split; [reflexivity|]. split; [exact A|].
    apply in_app_iff in B as [B|[B|B]]; [|congruence|]; apply in_or_app; auto.
  - destruct m as [|y m]; cbn in E2.
    + subst l2. rewrite app_nil_r in E1. subst l1. exists F1, F2. split; [reflexivity|]. split; [exact A|]. destruct B as [B|B]; [congruence|exact B].
    + injection E2 as <- ->. subst l1. exists (F1 ++ m), l2. rewrite app_assoc. split; [reflexivity|]. split; [|exact B].
      apply in_app_iff in A as [A|[A|A]]; [|congruence|]; apply in_or_app; auto.
  - subst. exists l1, (m ++ s :: F2). rewrite <- app_assoc. split; [reflexivity|]. split; [exact A|].
    apply in_app_iff in B as [B|B]; apply in_or_app; [left|right; right]; exact B.
  - subst. exists (F1 ++ s :: m), l2. rewrite <- app_assoc. split; [reflexivity|]. split; [|exact B].
    apply in_app_iff in A as [A|A]; apply in_or_app; [left|right; right]; exact A.
Qed.
Lemma before_side F1 F2 a b : NoDup (F1 ++ F2) -> before (F1 ++ F2) a b -> In a F2 -> In b F2.
Proof.
  intros N B I. destruct B as (l1 & l2 & E & A & B). apply app_eq_app in E as (m & [[-> ->]|[-> ->]]).
  - exfalso. eapply NoDup_parts; [exact N| |exact I]. apply in_or_app. now left.
  - apply in_or_app. now right.
Qed.
Lemma before_In_l l a b : before l a b -> In a l.
Proof. intros (l1 & l2 & -> & A & B). apply in_or_app. now left. Qed.
Lemma before_total l a b : In a l -> In b l -> a <> b -> before l a b \/ before l b a.
Proof.
  intros A B D. apply in_split in A as (l1 & l2 & ->). apply in_app_iff in B as [B|[B|B]]; [right; now apply before_mid_l|congruence|left; now apply before_mid].
Qed.
Lemma filter_split {A} (f : A -> bool) l : forall a b, filter f l = a ++ b -> exists l1 l2, l = l1 ++ l2 /\ filter f l1 = a /\ filter f l2 = b.
Proof.
  induction l as [|x l IH]; intros a b E; cbn [filter] in E.
  - symmetry in E. apply app_eq_nil in E as [-> ->]. exists [], []. auto.
  - destruct (f x) eqn:F.
    + destruct a as [|y a]; cbn in E.
      * exists [], (x :: l). cbn. rewrite F. auto.
      * injection E as <- E. destruct (IH _ _ E) as (l1 & l2 & -> & <- & <-). exists (x :: l1), l2. cbn. rewrite F. auto.
    + destruct (IH _ _ E) as (l1 & l2 & -> & <- & <-). exists (x :: l1), l2. cbn. rewrite F. auto.
Qed.
Lemma before_filter f l a b : before (filter f l) a b -> before l a b.
Proof.
  intros (x & y & E & A & B). apply filter_split in E as (l1 & l2 & -> & <- & <-). apply filter_In in A as [A _]. apply filter_In in B as [B _]. exists l1, l2. auto.
Qed.
Lemma before_seq s n a b : s <= a -> a < b -> b < s + n -> before (seq s n) a b.
Proof.
  intros A L B. exists (seq s (b - s)), (seq b (n - (b - s))). split.
  - replace n with ((b - s) + (n - (b - s))) at 1 by lia. rewrite seq_app. do 2 f_equal. lia.
  - split; apply in_seq; lia.
Qed.
Lemma before_rev l a b : before l a b -> before (rev l) b a.
Proof. intros (l1 & l2 & -> & A & B). exists (rev l2), (rev l1). rewrite rev_app_distr. split; [reflexivity|]. rewrite <- !in_rev. auto. Qed.
Lemma erase_at l1 x l2 : erase (length l1) (l1 ++ x :: l2) = l1 ++ l2.
Proof.
  unfold erase. rewrite firstn_app, Nat.sub_diag, firstn_all. cbn [firstn]. rewrite app_nil_r. f_equal. rewrite skipn_app.
  rewrite skipn_all2 by lia. replace (S (length l1) - length l1) with 1 by lia. reflexivity.
Qed.
Lemma insert_at l1 x l2 : insert (length l1) x (l1 ++ l2) = l1 ++ x :: l2.
Proof. unfold insert. rewrite firstn_app, Nat.sub_diag, firstn_all, skipn_app, skipn_all, Nat.sub_diag. cbn. now rewrite app_nil_r. Qed.
Lemma move_before l1 y l2 x l3 : insert (length l1) x (erase (length (l1 ++ y :: l2)) ((l1 ++ y :: l2) ++ x :: l3)) = l1 ++ x :: y :: l2 ++ l3.
Proof. rewrite erase_at, <- app_assoc. apply insert_at. Qed.

(** * the loop *)
Section Frame.
  Variables (ls : list layer) (sup : bool) (p N : nat) (t : nat -> nat) (ok : nat -> bool).
  Hypothesis pN : p < N.
  Hypothesis pay : kind_idx ls LPayload = Some p.
  Hypothesis is_pay : forall x, x < N -> is_payload ls x = Nat.eqb p x.
  Hypothesis t_lt : forall i, p < i < N -> t i < i.
  Definition whole (cur : list nat) : Prop := Permutation cur (seq 0 N).
  Hypothesis prefix_layer : forall i cur, i <= p -> whole cur -> (i = p \/ before cur i p) ->
    force_order ls sup cur i = if ok i then Ok (cur, false) else Err.
  Hypothesis suffix_ok : forall i cur, p < i < N -> ok i = true -> whole cur -> force_order ls sup cur i = suffix_layer ls cur i (position (t i) cur).
  Hypothesis suffix_bad : forall i cur, p < i < N -> ok i = false -> whole cur -> before cur p i -> force_order ls sup cur i = Err.

  Lemma whole_nodup cur : whole cur -> NoDup cur.
  Proof. intro W. apply (Permutation_NoDup (l := seq 0 N)); [now symmetry|apply seq_NoDup]. Qed.
  Lemma whole_in cur x : whole cur -> In x cur <-> x < N.
  Proof. intro W. rewrite (Permutation_in' eq_refl W), in_seq. lia. Qed.
  Lemma payload_pos cur : whole cur -> find_idx (is_payload ls) cur = position p cur.
  Proof. intro W. apply find_idx_ext. intros x I. apply is_pay. now apply (whole_in _ _ W). Qed.

  (** what genAdjustSuffixLayersOrder does *)
  Definition go_on (cur : list nat) (x this payload : nat) := fix go (others : list nat) : res (list nat * bool) :=
              match others with
              | [] => Ok (cur, false)
              | o :: others' =>
                  match position o cur with
                  | None => UB
                  | Some j => if Nat.ltb payload j then go others'
                              else if Nat.ltb j this then Ok (insert j x (erase this cur), true)
                              else go others'
                  end
              end.
  Lemma adjust_eq cur x i pp : whole cur -> p < x -> position x cur = Some i -> position p cur = Some pp ->
    adjust_suffix ls cur x = go_on cur x i pp (seq (S p) (x - S p)).
  Proof.
    intros W L I P. unfold adjust_suffix. rewrite pay, I, payload_pos, P by exact W. destruct (Nat.leb_spec x p); [lia|]. reflexivity.
  Qed.
  Lemma go_skip cur x i pp others rest : NoDup cur -> position x cur = Some i -> position p cur = Some pp ->
    (forall o, In o others -> before cur p o \/ before cur x o) -> go_on cur x i pp (others ++ rest) = go_on cur x i pp rest.
  Proof.
    intros Nd I P. induction others as [|o others IH]; intro H; [reflexivity|]. cbn [app go_on].
    destruct (H o (or_introl eq_refl)) as [B|B].
    - destruct (before_pos _ _ _ Nd B) as (a & j & A & J & L). rewrite P in A. injection A as <-. rewrite J. destruct (Nat.ltb_spec pp j); [|lia].
      apply IH. intros; apply H; now right.
    - destruct (before_pos _ _ _ Nd B) as (a & j & A & J & L). rewrite I in A. injection A as <-. rewrite J. destruct (Nat.ltb_spec pp j); [apply IH; intros; apply H; now right|].
      destruct (Nat.ltb_spec j i); [lia|]. apply IH. intros; apply H; now right.
  Qed.
  Lemma adjust_none cur x : whole cur -> p < x < N -> (forall o, p < o < x -> before cur p o \/ before cur x o) -> adjust_suffix ls cur x = Ok (cur, false).
  Proof.
    intros W L H. destruct (position_in x cur) as [i I]; [apply (whole_in _ _ W); lia|]. destruct (position_in p cur) as [pp P]; [apply (whole_in _ _ W); lia|].
    rewrite (adjust_eq _ _ _ _ W (proj1 L) I P). rewrite <- (app_nil_r (seq _ _)). rewrite go_skip; [reflexivity|now apply whole_nodup|exact I|exact P|].
    intros o O. apply H. apply in_seq in O. lia.
  Qed.
  Lemma adjust_move l1 o l2 x l3 : let cur := (l1 ++ o :: l2) ++ x :: l3 in whole cur -> p < o < x -> x < N -> before cur o p ->
    (forall o', p < o' < o -> before cur p o' \/ before cur x o') -> adjust_suffix ls cur x = Ok (l1 ++ x :: o :: l2 ++ l3, true).
  Proof.
    intros cur W L Lx B H. pose proof (whole_nodup _ W) as Nd.
    assert (Ix : position x cur = Some (length (l1 ++ o :: l2))).
    { apply position_first. intro I. eapply (NoDup_parts (l1 ++ o :: l2) (x :: l3)); [exact Nd|exact I|now left]. }
    assert (Io : position o cur = Some (length l1)).
    { unfold cur. rewrite <- app_assoc. cbn [app]. apply position_first. intro I. unfold cur in Nd. rewrite <- app_assoc in Nd. eapply NoDup_parts; [exact Nd|exact I|now left]. }
    destruct (before_pos _ _ _ Nd B) as (a & pp & A & P & Lt). rewrite Io in A. injection A as <-.
    assert (Lpx : p < x) by lia. rewrite (adjust_eq _ _ _ _ W Lpx Ix P). replace (x - S p) with ((o - S p) + (1 + (x - S o))) by lia. rewrite seq_app.
    rewrite go_skip; [|exact Nd|exact Ix|exact P|intros o' O; apply H; apply in_seq in O; lia]. replace (S p + (o - S p)) with o by lia.
    cbn [Nat.add seq go_on]. rewrite Io. destruct (Nat.ltb_spec pp (length l1)); [lia|]. destruct (Nat.ltb_spec (length l1) (length (l1 ++ o :: l2))) as [_|G].
    - f_equal. f_equal. apply move_before.
    - rewrite app_length in G. cbn in G. lia.
  Qed.

  Definition still (cur : list nat) (x : nat) : Prop := force_order ls sup cur x = Ok (cur, false).
  Lemma still_prefix cur i : whole cur -> i <= p -> ok i = true -> (i = p \/ before cur i p) -> still cur i.
  Proof. intros W L O B. unfold still. rewrite (prefix_layer i cur L W B), O. reflexivity. Qed.
  Lemma suffix_there cur i : whole cur -> p < i < N -> ok i = true -> before cur i (t i) -> force_order ls sup cur i = adjust_suffix ls cur i.
  Proof.
    intros W L O B. rewrite (suffix_ok i cur L O W). unfold suffix_layer. destruct (before_pos _ _ _ (whole_nodup _ W) B) as (a & b & -> & -> & Lt).
    destruct (Nat.ltb_spec b a); [lia|reflexivity].
  Qed.
  Lemma still_suffix cur i : whole cur -> p < i < N -> ok i = true -> before cur i (t i) -> (forall o, p < o < i -> before cur p o \/ before cur i o) -> still cur i.
  Proof. intros W L O B H. unfold still. rewrite (suffix_there cur i W L O B). now apply adjust_none. Qed.

  (** the loop from some position on *)
  Definition run (n : nat) (cur : list nat) (idx : nat) : option (res (list nat)) :=
    match order_pass (length cur - idx) ls sup cur idx with
    | Ok (cur', true) => order_loop n ls sup cur'
    | Ok (cur', false) => Some (Ok cur')
    | Err => Some Err
    | UB => Some UB
    end.
  Lemma loop_run n cur : order_loop (S n) ls sup cur = run n cur 0.
  Proof. unfold run. cbn [order_loop]. rewrite Nat.sub_0_r. reflexivity. Qed.
  Lemma nth_mid {A} (l1 : list A) x l2 : nth_error (l1 ++ x :: l2) (length l1) = Some x.
  Proof. rewrite nth_error_app2, Nat.sub_diag by lia. reflexivity. Qed.
  Lemma run_at n l1 x l2 : run n (l1 ++ x :: l2) (length l1) =
    match force_order ls sup (l1 ++ x :: l2) x with
    | Ok (cur', true) => order_loop n ls sup cur'
    | Ok (cur', false) => match order_pass (length l2) ls sup cur' (S (length l1)) with
        | Ok (c, true) => order_loop n ls sup c | Ok (c, false) => Some (Ok c) | Err => Some Err | UB => Some UB end
    | Err => Some Err
    | UB => Some UB
    end.
  Proof.
    unfold run. assert (length (l1 ++ x :: l2) - length l1 = S (length l2)) as -> by (rewrite app_length; cbn; lia). cbn [order_pass].
    rewrite nth_mid. destruct (force_order ls sup (l1 ++ x :: l2) x) as [[c [|]]| |]; reflexivity.
  Qed.
  Lemma run_still n l1 l2 : forall l0, (forall x, In x l1 -> still (l0 ++ l1 ++ l2) x) -> run n (l0 ++ l1 ++ l2) (length l0) = run n (l0 ++ l1 ++ l2) (length (l0 ++ l1)).
  Proof.
    induction l1 as [|x l1 IH]; intros l0 H; [now rewrite app_nil_r|]. cbn [app] in *. rewrite run_at, (H x (or_introl eq_refl)).
    specialize (IH (l0 ++ [x])). rewrite <- !app_assoc in IH. cbn [app] in IH. rewrite <- IH by (intros; apply H; now right). unfold run.
    assert (length (l0 ++ x :: l1 ++ l2) - length (l0 ++ [x]) = length (l1 ++ l2)) as -> by (rewrite !app_length; cbn [length]; rewrite app_length; lia).
    replace (length (l0 ++ [x])) with (S (length l0)) by (rewrite app_length; cbn; lia). reflexivity.
  Qed.

  (** how far out a suffix layer gets *)
  Fixpoint um (k : nat) : nat := match k with O => p | S k' => Nat.min (t (S p + k')) (um k') end.
  Definition u (i : nat) : nat := um (i - p).
  Lemma um_le k j : j <= k -> um k <= um j.
  Proof. clear -p t. induction 1; [lia|]. cbn [um]. lia. Qed.
  Lemma u_le i j : j <= i -> u i <= u j.
  Proof. clear -p t. intro L. apply um_le. lia. Qed.
  Lemma u_step k : u (S p + k) = Nat.min (t (S p + k)) (um k).
  Proof. unfold u. replace (S p + k - p) with (S k) by lia. reflexivity. Qed.

  Record complete (k : nat) (F : list nat) : Prop := {
    c_nodup : NoDup F;
    c_pre : filter (fun x => x <=? p) F = seq 0 (S p);
    c_suf : filter (fun x => p <? x) F = rev (seq (S p) k);
    c_last : exists F0, F = F0 ++ [p];
    c_tgt : forall i, p < i <= p + k -> before F i (t i);
    c_wrap : forall i x, p < i <= p + k -> x <= p -> (before F i x <-> u i <= x) }.
  Lemma c_In k F x : complete k F -> In x F <-> x <= p + k.
  Proof.
    clear -p t. intro C. destruct (Nat.leb_spec x p) as [L|L].
    - assert (In x (filter (fun x => x <=? p) F) <-> x <= p) as H by (rewrite (c_pre _ _ C), in_seq; lia). rewrite filter_In in H. destruct (Nat.leb_spec x p); [|lia]. intuition lia.
    - assert (In x (filter (fun x => p <? x) F) <-> p < x <= p + k) as H by (rewrite (c_suf _ _ C), <- in_rev, in_seq; lia). rewrite filter_In in H. destruct (Nat.ltb_spec p x); [|lia]. intuition lia.
  Qed.
  Lemma c_sorted k F a b : complete k F -> a < b <= p -> before F a b.
  Proof. intros C L. apply (before_filter (fun x => x <=? p)). rewrite (c_pre _ _ C). apply before_seq; lia. Qed.
  Lemma c_nested k F a b : complete k F -> p < a < b -> b <= p + k -> before F b a.
  Proof. clear -p t. intros C L M. apply (before_filter (fun x => p <? x)). rewrite (c_suf _ _ C). apply before_rev. apply before_seq; lia. Qed.
  Lemma c_payload k F a : complete k F -> In a F -> a <> p -> before F a p.
  Proof. intros C I D. destruct (c_last _ _ C) as (F0 & ->). apply before_mid_l. apply in_app_iff in I as [I|[I|[]]]; [exact I|congruence]. Qed.
  Lemma complete_whole k F : complete k F -> Permutation F (seq 0 (S p + k)).
  Proof. intro C. apply NoDup_Permutation; [apply (c_nodup _ _ C)|apply seq_NoDup|]. intro x. rewrite (c_In _ _ _ C), in_seq. lia. Qed.

  Lemma mid_whole k F1 F2 tail : complete k (F1 ++ F2) -> tail = seq (S (S p + k)) (N - S (S p + k)) -> S p + k < N -> whole (F1 ++ (S p + k) :: F2 ++ tail).
  Proof.
    intros C -> L. unfold whole. etransitivity; [symmetry; apply Permutation_middle|]. rewrite app_assoc. etransitivity.
    - apply perm_skip. apply Permutation_app_tail. apply (complete_whole k). exact C.
    - etransitivity; [apply Permutation_middle|]. replace N with (S p + k + S (N - S (S p + k))) at 2 by lia. rewrite (seq_app (S p + k) (S (N - S (S p + k))) 0). reflexivity.
  Qed.
  (** no layer before the suffix [s] in the middle of the stack moves *)
  Lemma mid_still k F1 F2 tail x : complete k (F1 ++ F2) -> tail = seq (S (S p + k)) (N - S (S p + k)) -> S p + k < N -> (forall i, i <= p + k -> ok i = true) ->
    In x (F1 ++ F2) -> still (F1 ++ (S p + k) :: F2 ++ tail) x.
  Proof.
    intros C T L Ok1 I. pose proof (mid_whole _ _ _ _ C T L) as W. assert (Lx : x <= p + k) by now apply (c_In _ _ _ C).
    assert (E : F1 ++ (S p + k) :: F2 ++ tail = (F1 ++ (S p + k) :: F2) ++ tail) by (now rewrite <- app_assoc).
    assert (Mono : forall a b, a <= p + k -> b <= p + k -> before (F1 ++ F2) a b -> before (F1 ++ (S p + k) :: F2 ++ tail) a b).
    { intros a b A B H. rewrite E. apply before_app_r. apply before_insert; [lia|lia|exact H]. }
    destruct (Nat.leb_spec x p) as [G|G].
    - apply still_prefix; [exact W|exact G|now apply Ok1|]. destruct (Nat.eq_dec x p) as [->|D]; [now left|]. right. apply Mono; [lia|lia|]. now apply (c_payload k).
    - apply still_suffix; [exact W|lia|now apply Ok1| |].
      + pose proof (t_lt x ltac:(lia)). apply Mono; [lia|lia|]. apply (c_tgt _ _ C). lia.
      + intros o O. right. apply Mono; [lia|lia|]. apply (c_nested k); [exact C|lia|lia].
  Qed.
  Lemma complete_still k F tail x : complete k F -> tail = seq (S p + k) (N - (S p + k)) -> S p + k <= N -> (forall i, i <= p + k -> ok i = true) -> In x F -> still (F ++ tail) x.
  Proof.
    intros C T L Ok1 I. assert (Lx : x <= p + k) by now apply (c_In _ _ _ C).
    assert (W : whole (F ++ tail)).
    { unfold whole. subst tail. etransitivity; [apply Permutation_app_tail; apply (complete_whole k); exact C|]. rewrite <- (seq_app (S p + k) _ 0). now replace (S p + k + (N - (S p + k))) with N by lia. }
    destruct (Nat.leb_spec x p) as [G|G].
    - apply still_prefix; [exact W|exact G|now apply Ok1|]. destruct (Nat.eq_dec x p) as [->|D]; [now left|]. right. apply before_app_r. now apply (c_payload k).
    - apply still_suffix; [exact W|lia|now apply Ok1| |].
      + apply before_app_r. apply (c_tgt _ _ C). lia.
      + intros o O. right. apply before_app_r. apply (c_nested k); [exact C|lia|lia].
  Qed.
  Lemma wrap_sound k F1 F2 s x : complete k (F1 ++ F2) -> s = S p + k -> (forall y, y <= p -> In y F2 -> u s <= y) ->
    filter (fun y => p <? y) F1 = [] -> In (t s) F2 -> x <= p -> In x F2 <-> u s <= x.
  Proof.
    intros C -> B N1 T X. split; [apply (B x X)|]. intro U. pose proof (c_nodup _ _ C) as Nd. rewrite u_step in U.
    assert (U' : t (S p + k) <= x \/ um k <= x) by lia. destruct U' as [U'|U'].
    - destruct (Nat.eq_dec (t (S p + k)) x) as [<-|D]; [exact T|]. eapply before_side; [exact Nd| |exact T]. apply (c_sorted k); [exact C|lia].
    - destruct k as [|k].
      + cbn [um] in U'. assert (x = p) as -> by lia. destruct (c_last _ _ C) as (F0 & E). destruct F2 as [|y F2]; [destruct T|].
        assert (exists F2', y :: F2 = F2' ++ [p]) as (F2' & ->); [|apply in_or_app; right; now left].
        apply app_eq_app in E as (m & [[_ E]|[_ E]]).
        * destruct m as [|a m]; [exists []; symmetry; exact E|]. destruct m; discriminate.
        * eauto.
      + set (i := p + S k) in *. assert (In i F2) as I.
        { assert (J : In i (F1 ++ F2)) by (apply (c_In _ _ _ C); lia). apply in_app_iff in J as [J|J]; [|exact J].
          assert (In i (filter (fun y => p <? y) F1)) as K by (apply filter_In; split; [exact J|apply Nat.ltb_lt; lia]). rewrite N1 in K. destruct K. }
        eapply before_side; [exact Nd| |exact I]. apply (c_wrap _ _ C); [lia|exact X|]. unfold u. replace (i - p) with (S k) by lia. exact U'.
  Qed.
  Lemma complete_next k F1 F2 s : complete k (F1 ++ F2) -> s = S p + k -> filter (fun y => p <? y) F1 = [] -> In (t s) F2 ->
    (forall y, y <= p -> In y F2 -> u s <= y) -> complete (S k) (F1 ++ s :: F2).
  Proof.
    intros C Es N1 T B. pose proof (c_nodup _ _ C) as Nd.
    assert (Ns : ~ In s (F1 ++ F2)) by (rewrite (c_In _ _ _ C); lia).
    assert (Nd' : NoDup (F1 ++ s :: F2)) by (apply NoDup_Add with (a := s) (l := F1 ++ F2); [apply Add_app|split; assumption]).
    constructor.
    - exact Nd'.
    - rewrite filter_app. cbn [filter]. destruct (Nat.leb_spec s p); [lia|]. rewrite <- filter_app. apply (c_pre _ _ C).
    - rewrite seq_S, rev_app_distr. cbn [rev app]. rewrite <- (c_suf _ _ C), !filter_app, N1. cbn [filter app]. destruct (Nat.ltb_spec p s); [|lia]. now rewrite Es.
    - destruct (c_last _ _ C) as (F0 & E). destruct F2 as [|y F2]; [destruct T|].
      assert (exists F2', y :: F2 = F2' ++ [p]) as (F2' & ->).
      { apply app_eq_app in E as (m & [[_ E]|[_ E]]); [|eauto]. destruct m as [|a m]; [exists []; symmetry; exact E|]. destruct m; discriminate. }
      exists (F1 ++ s :: F2'). rewrite <- app_assoc. reflexivity.
    - intros i I. destruct (Nat.eq_dec i s) as [->|D]; [now apply before_mid|]. apply before_insert; [exact D| |apply (c_tgt _ _ C); lia].
      intro E. assert (X : before (F1 ++ F2) i (t i)) by (apply (c_tgt _ _ C); lia). apply Ns. rewrite <- E. destruct X as (l1 & l2 & -> & _ & X). apply in_or_app. now right.
    - intros i x I X. destruct (Nat.eq_dec i s) as [->|D].
      + rewrite <- (wrap_sound k F1 F2 s x C Es B N1 T X). split; [|apply before_mid].
        intro H. assert (J : In x (s :: F2)) by (eapply before_side; [exact Nd'|exact H|now left]). destruct J as [J|J]; [lia|exact J].
      + rewrite before_insert by lia. apply (c_wrap _ _ C); lia.
  Qed.
  (** the innermost suffix of the part before [s] *)
  Lemma last_suffix F1 : filter (fun y => p <? y) F1 <> [] -> exists a o b, F1 = a ++ o :: b /\ p < o /\ filter (fun y => p <? y) b = [] /\
    length (filter (fun y => p <? y) a) < length (filter (fun y => p <? y) F1).
  Proof.
    induction F1 as [|x F1 IH] using rev_ind; [now intros []|]. intro H. destruct (Nat.ltb_spec p x) as [L|L].
    - exists F1, x, []. split; [reflexivity|]. split; [exact L|]. split; [reflexivity|]. rewrite filter_app, app_length. cbn [filter]. destruct (Nat.ltb_spec p x); [cbn; lia|lia].
    - assert (E : filter (fun y => p <? y) (F1 ++ [x]) = filter (fun y => p <? y) F1).
      { rewrite filter_app. cbn [filter]. destruct (Nat.ltb_spec p x); [lia|]. apply app_nil_r. }
      rewrite E in H. destruct (IH H) as (a & o & b & -> & Lo & Fb & Lt). exists a, o, (b ++ [x]). split; [now rewrite <- app_assoc|]. split; [exact Lo|]. split; [|now rewrite E].
      rewrite filter_app, Fb. cbn [filter]. destruct (Nat.ltb_spec p x); [lia|reflexivity].
  Qed.
  Lemma mid_move k F1a o F1b F2 tail s : complete k ((F1a ++ o :: F1b) ++ F2) -> s = S p + k -> tail = seq (S s) (N - S s) -> s < N -> p < o ->
    filter (fun y => p <? y) F1b = [] -> In (t s) F2 -> (forall i, i <= p + k -> ok i = true) ->
    adjust_suffix ls ((F1a ++ o :: F1b) ++ s :: F2 ++ tail) s = Ok (F1a ++ s :: o :: F1b ++ F2 ++ tail, true).
  Proof.
    intros C Es T L Lo Fb It O. assert (W : whole ((F1a ++ o :: F1b) ++ s :: F2 ++ tail)) by (subst s; now apply (mid_whole k)).
    assert (Lo2 : o <= p + k) by (apply (c_In _ _ _ C); apply in_or_app; left; apply in_or_app; right; now left).
    assert (Mono : forall a b, a <= p + k -> b <= p + k -> before ((F1a ++ o :: F1b) ++ F2) a b -> before ((F1a ++ o :: F1b) ++ s :: F2 ++ tail) a b).
    { intros a b A B H. change (s :: F2 ++ tail) with ((s :: F2) ++ tail). rewrite app_assoc. apply before_app_r. apply before_insert; [lia|lia|exact H]. }
    rewrite (adjust_move F1a o F1b s (F2 ++ tail)); [reflexivity|exact W|lia|exact L| |].
    - apply Mono; [lia|lia|]. apply (c_payload k); [exact C| |lia]. apply (c_In _ _ _ C). lia.
    - intros o' Ho. right. apply before_mid. apply in_or_app. left. assert (J : In o' (F1b ++ F2)).
      { assert (K : In o' (o :: F1b ++ F2)); [|destruct K as [K|K]; [lia|exact K]].
        pose proof (c_nested k _ o' o C ltac:(lia) Lo2) as X. pose proof (c_nodup _ _ C) as Nd. rewrite <- app_assoc in X, Nd. cbn [app] in X, Nd.
        eapply before_side; [exact Nd|exact X|now left]. }
      apply in_app_iff in J as [J|J]; [|exact J]. assert (K : In o' (filter (fun y => p <? y) F1b)) by (apply filter_In; split; [exact J|apply Nat.ltb_lt; lia]). rewrite Fb in K. destruct K.
  Qed.
  (** moving outwards: the suffix [s] before its target, with other suffixes still outside of it *)
  Lemma bubble k s tail : s = S p + k -> tail = seq (S s) (N - S s) -> s < N -> (forall i, i <= s -> ok i = true) ->
    forall m F1 F2, length (filter (fun y => p <? y) F1) < m -> complete k (F1 ++ F2) -> In (t s) F2 -> (forall y, y <= p -> In y F2 -> u s <= y) ->
    exists turns G, complete (S k) G /\ forall n, order_loop (turns + n) ls sup (F1 ++ s :: F2 ++ tail) = run n (G ++ tail) (length G).
  Proof.
    intros Es T L O. induction m as [|m IH]; intros F1 F2 Lm C It B; [lia|].
    assert (O' : forall i, i <= p + k -> ok i = true) by (intros; apply O; lia).
    destruct (filter (fun y => p <? y) F1) as [|z zs] eqn:Ef.
    - pose proof (complete_next k F1 F2 s C Es Ef It B) as C'. exists 1, (F1 ++ s :: F2). split; [exact C'|]. intro n. cbn [Nat.add]. rewrite loop_run.
      assert (E : F1 ++ s :: F2 ++ tail = [] ++ (F1 ++ s :: F2) ++ tail) by (cbn [app]; now rewrite <- app_assoc). rewrite E.
      change 0 with (length (@nil nat)). rewrite run_still; [reflexivity|]. intros x I. cbn [app].
      apply (complete_still (S k)); [exact C'|rewrite T; f_equal; lia|lia|intros; apply O; lia|exact I].
    - assert (Ne : filter (fun y => p <? y) F1 <> []) by (rewrite Ef; discriminate). destruct (last_suffix F1 Ne) as (a & o & b & -> & Lo & Fb & Lt).
      rewrite Ef in Lt. destruct (IH a (o :: b ++ F2)) as (turns & G & C' & R).
      + lia.
      + rewrite <- app_assoc in C. exact C.
      + right. apply in_or_app. now right.
      + intros y Ly Iy. destruct Iy as [Iy|Iy]; [lia|]. assert (Lo2 : o <= p + k) by (apply (c_In _ _ _ C); apply in_or_app; left; apply in_or_app; right; now left).
        transitivity (u o); [apply u_le; lia|]. apply (c_wrap _ _ C); [lia|exact Ly|]. rewrite <- app_assoc. cbn [app]. now apply before_mid.
      + exists (S turns), G. split; [exact C'|]. intro n. rewrite <- (R n). cbn [Nat.add]. rewrite loop_run.
        assert (E : (a ++ o :: b) ++ s :: F2 ++ tail = [] ++ (a ++ o :: b) ++ s :: F2 ++ tail) by reflexivity. rewrite E. change 0 with (length (@nil nat)). rewrite run_still.
        * cbn [app length]. rewrite run_at. assert (W : whole ((a ++ o :: b) ++ s :: F2 ++ tail)) by (subst s; now apply (mid_whole k)).
          rewrite suffix_there; [|exact W|lia|now apply O|apply before_mid; apply in_or_app; now left].
          rewrite (mid_move k a o b F2 tail s C Es T L Lo Fb It O'). cbn [app]. rewrite <- app_assoc. reflexivity.
        * intros x I. cbn [app]. subst s. apply (mid_still k); [exact C|exact T|exact L|exact O'|apply in_or_app; now left].
  Qed.
  Lemma t_In k F s : complete k F -> s = S p + k -> s < N -> In (t s) F.
  Proof. intros C Es L. apply (c_In _ _ _ C). pose proof (t_lt s ltac:(lia)). lia. Qed.
  Lemma advance k F s tail : complete k F -> s = S p + k -> tail = seq (S s) (N - S s) -> s < N -> (forall i, i <= s -> ok i = true) ->
    exists turns G, complete (S k) G /\ forall n, run (turns + n) (F ++ s :: tail) (length F) = run n (G ++ tail) (length G).
  Proof.
    intros C Es T L O. assert (O' : forall i, i <= p + k -> ok i = true) by (intros; apply O; lia).
    destruct (in_split _ _ (t_In k F s C Es L)) as (F1 & F2' & E). set (F2 := t s :: F2') in *.
    assert (C1 : complete k (F1 ++ F2)) by (rewrite <- E; exact C). pose proof (c_nodup _ _ C1) as Nd.
    assert (It : In (t s) F2) by now left.
    assert (B : forall y, y <= p -> In y F2 -> u s <= y).
    { intros y Ly [<-|Iy]; [rewrite Es, u_step; lia|]. assert (X : before (F1 ++ F2) (t s) y) by now apply before_mid.
      assert (Lt : t s < s) by (apply t_lt; lia). destruct (Nat.leb_spec (t s) p) as [G|G].
      - destruct (Nat.lt_total y (t s)) as [H|[H|H]].
        + exfalso. eapply before_asym; [exact Nd|exact X|]. apply (c_sorted k); [exact C1|lia].
        + subst y. exfalso. exact (before_irrefl _ _ Nd X).
        + rewrite Es, u_step, <- Es. lia.
      - transitivity (u (t s)); [apply u_le; lia|]. apply (c_wrap _ _ C1); [lia|exact Ly|exact X]. }
    assert (W : whole (F ++ s :: tail)).
    { subst s tail F. rewrite <- app_nil_r in C1 at 1. pose proof (mid_whole k (F1 ++ F2) [] (seq (S (S p + k)) (N - S (S p + k)))) as X. rewrite app_nil_r in X. apply X; [exact C|reflexivity|exact L]. }
    assert (W1 : whole (F1 ++ s :: F2 ++ tail)) by (subst s; now apply (mid_whole k)).
    assert (FO : force_order ls sup (F ++ s :: tail) s = adjust_suffix ls (F1 ++ s :: F2 ++ tail) s).
    { rewrite (suffix_ok s _ ltac:(lia) (O s (Nat.le_refl s)) W). unfold suffix_layer.
      assert (Ps : position s (F ++ s :: tail) = Some (length F)) by (apply position_first; rewrite (c_In _ _ _ C); lia).
      assert (Pt : position (t s) (F ++ s :: tail) = Some (length F1)).
      { rewrite E, <- app_assoc. apply position_first. intro I. eapply NoDup_parts; [exact Nd|exact I|now left]. }
      rewrite Ps, Pt. destruct (Nat.ltb_spec (length F1) (length F)) as [_|G]; [|rewrite E, app_length in G; cbn in G; lia]. f_equal.
      rewrite E. unfold F2. rewrite move_before. cbn [app]. reflexivity. }
    destruct (filter (fun y => p <? y) F1) as [|z zs] eqn:Ef.
    - pose proof (complete_next k F1 F2 s C1 Es Ef It B) as C'. exists 0, (F1 ++ s :: F2). split; [exact C'|]. intro n. cbn [Nat.add]. rewrite run_at, FO.
      rewrite adjust_none; [|exact W1|lia|].
      + unfold run. assert (length F1 + length F2 = length F) as Len by (rewrite E, app_length; reflexivity).
        assert (length ((F1 ++ s :: F2) ++ tail) - length (F1 ++ s :: F2) = length tail) as -> by (rewrite app_length; lia).
        assert (length (F1 ++ s :: F2) = S (length F)) as -> by (rewrite app_length; cbn [length]; lia). rewrite <- app_assoc. reflexivity.
      + intros o Ho. right. apply before_mid. apply in_or_app. left. assert (J : In o (F1 ++ F2)) by (apply (c_In _ _ _ C1); lia).
        apply in_app_iff in J as [J|J]; [|exact J]. assert (K : In o (filter (fun y => p <? y) F1)) by (apply filter_In; split; [exact J|apply Nat.ltb_lt; lia]). rewrite Ef in K. destruct K.
    - assert (Ne : filter (fun y => p <? y) F1 <> []) by (rewrite Ef; discriminate). destruct (last_suffix F1 Ne) as (a & o & b & E1 & Lo & Fb & Lt). rewrite E1 in *.
      destruct (bubble k s tail Es T L O (S (length (filter (fun y => p <? y) a))) a (o :: b ++ F2)) as (turns & G & C' & R).
      + lia.
      + rewrite <- app_assoc in C1. exact C1.
      + right. apply in_or_app. now right.
      + intros y Ly Iy. destruct Iy as [Iy|Iy]; [lia|]. assert (Lo2 : o <= p + k) by (apply (c_In _ _ _ C1); apply in_or_app; left; apply in_or_app; right; now left).
        transitivity (u o); [apply u_le; lia|]. apply (c_wrap _ _ C1); [lia|exact Ly|]. rewrite <- app_assoc. cbn [app]. now apply before_mid.
      + exists turns, G. split; [exact C'|]. intro n. rewrite run_at, FO. rewrite (mid_move k a o b F2 tail s C1 Es T L Lo Fb It O').
        rewrite <- (R n). cbn [app]. rewrite <- app_assoc. reflexivity.
  Qed.
  Lemma filter_all (f : nat -> bool) l : (forall x, In x l -> f x = true) -> filter f l = l.
  Proof. induction l as [|a l IH]; intro H; [reflexivity|]. cbn. rewrite (H a (or_introl eq_refl)), IH; [reflexivity|]. intros x I. apply H. now right. Qed.
  Lemma complete_start : complete 0 (seq 0 (S p)).
  Proof.
    constructor.
    - apply seq_NoDup.
    - apply filter_all. intros x I. apply in_seq in I. apply Nat.leb_le. lia.
    - change (rev (seq (S p) 0)) with (@nil nat). destruct (filter _ _) as [|y l] eqn:E; [reflexivity|]. assert (I : In y (y :: l)) by now left. rewrite <- E in I. apply filter_In in I as [I J].
      apply in_seq in I. apply Nat.ltb_lt in J. lia.
    - exists (seq 0 p). apply seq_S.
    - intros i I. lia.
    - intros i x I. lia.
  Qed.
  Lemma order_rest : forall r k F, complete k F -> (forall i, i <= p + k -> ok i = true) -> S p + k + r = N ->
    exists turns res, (forall n, run (turns + n) (F ++ seq (S p + k) r) (length F) = Some res) /\
      ((exists G, res = Ok G /\ complete (N - S p) G /\ forall i, i < N -> ok i = true) \/ res = Err /\ exists i, i < N /\ ok i = false).
  Proof.
    induction r as [|r IH]; intros k F C O E.
    - exists 0, (Ok F). split.
      + intro n. cbn [seq]. rewrite app_nil_r. unfold run. rewrite Nat.sub_diag. reflexivity.
      + left. exists F. split; [reflexivity|]. replace (N - S p) with k by lia. split; [exact C|]. intros i I. apply O. lia.
    - cbn [seq]. remember (S p + k) as s eqn:Es. destruct (ok s) eqn:Os.
      + assert (O2 : forall i, i <= s -> ok i = true) by (intros i I; destruct (Nat.eq_dec i s) as [->|D]; [exact Os|apply O; lia]).
        destruct (advance k F s (seq (S s) r) C Es) as (t1 & G & C' & R); [f_equal; lia|lia|exact O2|].
        destruct (IH (S k) G C') as (t2 & res & R2 & P); [intros; apply O2; lia|lia|].
        exists (t1 + t2), res. split; [|exact P]. intro n. rewrite <- Nat.add_assoc, R. replace (S s) with (S p + S k) by lia. apply R2.
      + exists 0, Err. split; [|right; split; [reflexivity|exists s; split; [lia|exact Os]]]. intro n. rewrite run_at.
        rewrite suffix_bad; [reflexivity|lia|exact Os| |].
        * unfold whole. etransitivity; [apply Permutation_app_tail; apply (complete_whole k); exact C|]. change (s :: seq (S s) r) with (seq s (S r)). rewrite <- Es. replace N with (s + S r) by lia. rewrite (seq_app s (S r) 0). reflexivity.
        * destruct (c_last _ _ C) as (F0 & ->). exists (F0 ++ [p]), (s :: seq (S s) r). split; [reflexivity|]. split; [apply in_or_app; right; now left|now left].
  Qed.
  Lemma order_main : exists turns res, (forall n, order_loop (turns + n) ls sup (seq 0 N) = Some res) /\
      ((exists G, res = Ok G /\ complete (N - S p) G /\ forall i, i < N -> ok i = true) \/ res = Err /\ exists i, i < N /\ ok i = false).
  Proof.
    assert (W : whole (seq 0 N)) by (unfold whole; reflexivity).
    assert (Split : forall i, i <= p -> seq 0 N = seq 0 i ++ i :: seq (S i) (N - S i)).
    { intros i L. replace N with (i + S (N - S i)) at 1 by lia. rewrite seq_app. reflexivity. }
    assert (Bf : forall i, i <= p -> i = p \/ before (seq 0 N) i p) by (intros i L; destruct (Nat.eq_dec i p); [now left|right; apply before_seq; lia]).
    assert (D : (forall i, i <= p -> ok i = true) \/ exists i, i <= p /\ ok i = false /\ forall j, j < i -> ok j = true).
    { clear -p. induction p as [|q IH].
      - destruct (ok 0) eqn:E; [left; intros i I; now replace i with 0 by lia|]. right. exists 0. repeat split; [lia|exact E|lia].
      - destruct IH as [IH|(i & L & E & A)].
        + destruct (ok (S q)) eqn:E; [left; intros i I; destruct (Nat.eq_dec i (S q)) as [->|]; [exact E|apply IH; lia]|].
          right. exists (S q). repeat split; [lia|exact E|]. intros j J. apply IH. lia.
        + right. exists i. repeat split; [lia|exact E|exact A]. }
    destruct D as [O|(i & L & Oi & Oj)].
    - destruct (order_rest (N - S p) 0 (seq 0 (S p)) complete_start) as (turns & res & R & P); [intros; apply O; lia|lia|].
      exists (S turns), res. split; [|exact P]. intro n. cbn [Nat.add]. rewrite loop_run. rewrite <- (R n). rewrite Nat.add_0_r.
      assert (E : seq 0 N = [] ++ seq 0 (S p) ++ seq (S p) (N - S p)) by (cbn [app]; rewrite <- seq_app; f_equal; lia). rewrite E.
      change 0 with (length (@nil nat)) at 1. rewrite run_still; [reflexivity|]. intros x I. change (length (@nil nat)) with 0 in *. rewrite <- E. apply in_seq in I. apply still_prefix; [exact W|lia|apply O; lia|apply Bf; lia].
    - exists 1, Err. split; [|right; split; [reflexivity|exists i; split; [lia|exact Oi]]]. intro n. cbn [Nat.add]. rewrite loop_run.
      assert (E : seq 0 N = [] ++ seq 0 i ++ (i :: seq (S i) (N - S i))) by (cbn [app]; now apply Split). rewrite E.
      change 0 with (length (@nil nat)) at 1. rewrite run_still.
      + change (length (@nil nat)) with 0. cbn [app]. rewrite run_at, <- (Split i L). rewrite (prefix_layer i _ L W (Bf i L)), Oi. reflexivity.
      + intros x I. change (length (@nil nat)) with 0 in *. rewrite <- E. apply in_seq in I. apply still_prefix; [exact W|lia|apply Oj; lia|apply Bf; lia].
  Qed.
End Frame.
