From Verif.Model Require Import Base.
From Coq Require Import ZifyBool ZifyNat.

Lemma str_eqb_eq a : forall b, str_eqb a b = true <-> a = b.
Proof.
  induction a as [|x a IH]; intros [|y b]; simpl; split; intro H; try discriminate; auto.
  - apply andb_true_iff in H as [H1 H2]. apply Ascii.eqb_eq in H1. apply IH in H2. congruence.
  - injection H as -> ->. rewrite Ascii.eqb_refl. simpl. apply IH. reflexivity.
Qed.
Lemma str_eqb_refl a : str_eqb a a = true.
Proof. apply str_eqb_eq. reflexivity. Qed.
Lemma str_eqb_neq a b : str_eqb a b = false <-> a <> b.
Proof.
  split; intro H.
  - intro E. apply str_eqb_eq in E. congruence.
  - destruct (str_eqb a b) eqn:E; auto. apply str_eqb_eq in E. contradiction.
Qed.
Lemma str_eqb_sym a b : str_eqb a b = str_eqb b a.
Proof.
  destruct (str_eqb a b) eqn:E.
  - apply str_eqb_eq in E. subst. symmetry. apply str_eqb_refl.
  - symmetry. apply str_eqb_neq. apply str_eqb_neq in E. auto.
Qed.
Lemma mem_str_In s l : mem_str s l = true <-> In s l.
Proof.
  induction l as [|x l IH]; simpl; [split; [discriminate|tauto]|].
  rewrite orb_true_iff, IH, str_eqb_eq. split; intros [H|H]; auto.
Qed.
Lemma mem_str_nIn s l : mem_str s l = false <-> ~ In s l.
Proof.
  rewrite <- mem_str_In. destruct (mem_str s l); split; intro H; auto; try discriminate.
  exfalso; auto.
Qed.
Definition str_dec (a b : str) : {a = b} + {a <> b}.
Proof.
  destruct (str_eqb a b) eqn:E; [left; apply str_eqb_eq; exact E|right; apply str_eqb_neq; exact E].
Defined.

Lemma bind_Ok {A B} (m : res A) (k : A -> res B) b :
  bind m k = Ok b <-> exists a, m = Ok a /\ k a = Ok b.
Proof.
  destruct m as [a| |]; simpl; split.
  - eauto.
  - intros (a' & E & H). injection E as ->. exact H.
  - discriminate.
  - intros (a' & E & _). discriminate.
  - discriminate.
  - intros (a' & E & _). discriminate.
Qed.
Lemma guard_Ok b u : guard b = Ok u <-> b = true.
Proof. unfold guard; destruct b, u; split; congruence. Qed.
Lemma of_opt_Ok {A} (o : option A) a : of_opt o = Ok a <-> o = Some a.
Proof. destruct o; simpl; split; congruence. Qed.

(** Inversion of monadic hypotheses. *)
Ltac inv_ok :=
  repeat match goal with
  | H : Ok _ = Ok _ |- _ => injection H as H; try subst
  | H : Err = Ok _ |- _ => discriminate H
  | H : UB = Ok _ |- _ => discriminate H
  | H : bind _ _ = Ok _ |- _ => apply bind_Ok in H; destruct H as (? & ? & H)
  | H : guard _ = Ok _ |- _ => apply guard_Ok in H
  | H : of_opt _ = Ok _ |- _ => apply of_opt_Ok in H
  end.

Lemma to_u64_range z : 0 <= to_u64 z < two64.
Proof. unfold to_u64. apply Z.mod_pos_bound. reflexivity. Qed.
Lemma to_u64_id z : 0 <= z < two64 -> to_u64 z = z.
Proof. intros H. unfold to_u64. apply Z.mod_small. exact H. Qed.
Lemma to_u32_id z : 0 <= z < two32 -> to_u32 z = z.
Proof. intros H. unfold to_u32. apply Z.mod_small. exact H. Qed.
Lemma to_s64_range z : int_min <= to_s64 z <= int_max.
Proof.
  unfold to_s64. pose proof (Z.mod_pos_bound z two64 ltac:(reflexivity)).
  unfold int_min, int_max, two63, two64 in *.
  destruct (Z.leb_spec 9223372036854775808 (z mod 18446744073709551616)); lia.
Qed.
Lemma to_s64_id z : int_min <= z <= int_max -> to_s64 z = z.
Proof.
  intros H. unfold to_s64, int_min, int_max, two63, two64 in *.
  destruct (Z.le_gt_cases 0 z) as [P|N].
  - rewrite Z.mod_small by lia.
    destruct (Z.leb_spec 9223372036854775808 z); lia.
  - assert (E : z mod 18446744073709551616 = z + 18446744073709551616).
    { symmetry. apply Z.mod_unique with (-1); lia. }
    rewrite E.
    destruct (Z.leb_spec 9223372036854775808 (z + 18446744073709551616)); lia.
Qed.
Lemma to_s64_u64 z : to_s64 (to_u64 z) = to_s64 z.
Proof. unfold to_s64, to_u64. rewrite Z.mod_mod by discriminate. reflexivity. Qed.
Lemma to_u64_s64 z : to_u64 (to_s64 z) = to_u64 z.
Proof.
  unfold to_u64, to_s64. destruct (Z.leb_spec two63 (z mod two64)).
  - unfold two64. rewrite Zminus_mod, Z.mod_same by discriminate. rewrite Z.sub_0_r.
    rewrite !Z.mod_mod by discriminate. reflexivity.
  - rewrite Z.mod_mod by discriminate. reflexivity.
Qed.
Lemma to_u64_nonneg_s z : 0 <= z <= int_max -> to_u64 z = z.
Proof. intros. apply to_u64_id. unfold int_max, two64 in *; lia. Qed.
Lemma to_u64_neg z : int_min <= z < 0 -> to_u64 z = z + two64.
Proof.
  intros. unfold to_u64, int_min, two64 in *. symmetry. apply Z.mod_unique with (-1); lia.
Qed.
Lemma s64_Ok z r : s64 z = Ok r <-> r = z /\ int_min <= z <= int_max.
Proof.
  unfold s64. destruct (Z.leb_spec int_min z), (Z.leb_spec z int_max); simpl; split; intro H1;
  try discriminate; try (injection H1 as <-); try (split; [reflexivity|lia]); try lia.
  destruct H1 as [-> _]; reflexivity.
Qed.

(** Inversion of monadic hypotheses, splitting pairs as well. *)
Ltac inv_all :=
  repeat (match goal with
  | H : Ok _ = Ok _ |- _ => injection H; clear H; intros; try subst
  | H : Err = Ok _ |- _ => discriminate H
  | H : UB = Ok _ |- _ => discriminate H
  | H : bind _ _ = Ok _ |- _ => apply bind_Ok in H; destruct H as (? & ? & H)
  | H : guard _ = Ok _ |- _ => apply guard_Ok in H
  | H : of_opt _ = Ok _ |- _ => apply of_opt_Ok in H
  | H : (let (_, _) := ?x in _) = Ok _ |- _ => destruct x; cbv beta iota in H
  end).

Lemma zrange_forallb (P : Z -> bool) (n : nat) :
  forallb P (map Z.of_nat (seq 0 n)) = true -> forall z, 0 <= z < Z.of_nat n -> P z = true.
Proof.
  intros H z Hz. rewrite forallb_forall in H. apply H.
  apply in_map_iff. exists (Z.to_nat z). split; [lia|]. apply in_seq. lia.
Qed.

Lemma mapM_Forall2 {A B} (f : A -> res B) l : forall l', mapM f l = Ok l' -> Forall2 (fun a b => f a = Ok b) l l'.
Proof.
  induction l as [|a l IH]; simpl; intros l' H; inv_all; constructor; auto.
Qed.
Lemma mapM_In {A B} (f : A -> res B) l l' b : mapM f l = Ok l' -> In b l' -> exists a, In a l /\ f a = Ok b.
Proof.
  intros H. apply mapM_Forall2 in H. induction H; simpl; intros HI; [tauto|].
  destruct HI as [<-|HI]; [eauto|]. destruct (IHForall2 HI) as (a & ? & ?). eauto.
Qed.

(** invariants through foldM *)
Lemma foldM_inv {A B} (f : A -> B -> res A) (I : A -> Prop) l :
  (forall a b a', I a -> f a b = Ok a' -> I a') ->
  forall a a', I a -> foldM f l a = Ok a' -> I a'.
Proof.
  intros Hs. induction l as [|b l IH]; simpl; intros a a' Ha H; inv_all; eauto.
Qed.
Lemma foldM_inv_In {A B} (f : A -> B -> res A) (I : A -> Prop) l :
  (forall a b a', In b l -> I a -> f a b = Ok a' -> I a') ->
  forall a a', I a -> foldM f l a = Ok a' -> I a'.
Proof.
  induction l as [|b l IH]; simpl; intros Hs a a' Ha H; inv_all; auto.
  eapply IH; [|eapply Hs; [left; reflexivity|exact Ha|eassumption]|eassumption].
  intros; eapply Hs; eauto.
Qed.

Lemma NoDup_snoc {A} (l : list A) a : NoDup l -> ~ In a l -> NoDup (l ++ [a]).
Proof.
  induction l as [|x l IH]; simpl; intros N H; [repeat constructor; auto|].
  inversion N; subst. constructor; [|apply IH; auto].
  rewrite in_app_iff. simpl. intros [X|[X|[]]]; auto.
Qed.
