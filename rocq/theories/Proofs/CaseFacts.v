(** Texts up to letter case. *)
From Verif.Model Require Import Base Common.
From Verif.Spec Require Import Texts HeaderSpec.
From Verif.Proofs Require Import BaseFacts CommonFacts.

Lemma caseless_lower v w : caseless v w -> map tolower w = w -> to_lower v = w.
Proof.
  intros H. induction H as [|a b v w Ha H IH]; intros E; [reflexivity|]. injection E as E1 E2. unfold to_lower in *. cbn [map]. rewrite (IH E2). f_equal.
  destruct Ha as [->|(i & A & B)]; [exact E1|]. clear - A B. do 26 (destruct i as [|i]; [cbn in A, B; injection A as <-; injection B as <-; reflexivity|]).
  cbn in A. destruct i; discriminate.
Qed.
Fixpoint upper_pos (a : ascii) (l : str) : nat := match l with [] => O | x :: l' => if ch_eqb a x then O else S (upper_pos a l') end.
Lemma tolower_cases (a : ascii) : tolower a = a \/
  exists i, nth_error (T "ABCDEFGHIJKLMNOPQRSTUVWXYZ") i = Some a /\ nth_error (T "abcdefghijklmnopqrstuvwxyz") i = Some (tolower a).
Proof.
  destruct a as [b1 b2 b3 b4 b5 b6 b7 b8]; destruct b1, b2, b3, b4, b5, b6, b7, b8;
    first [left; vm_compute; reflexivity
          | right; match goal with |- exists i, nth_error ?l i = Some ?a /\ _ => let p := eval vm_compute in (upper_pos a l) in exists p end; split; vm_compute; reflexivity].
Qed.
Lemma lower_caseless v : caseless v (to_lower v).
Proof.
  induction v as [|a v IH]; [constructor|]. unfold to_lower. cbn [map]. constructor; [|exact IH]. destruct (tolower_cases a) as [E|E]; [left; congruence|right; exact E].
Qed.
Lemma caseless_iff v w : map tolower w = w -> (caseless v w <-> to_lower v = w).
Proof. intros E. split; [intros H; apply caseless_lower; assumption|]. intros <-. apply lower_caseless. Qed.
Lemma bool_text_spec v b : parseStrToBool v = Some b <-> bool_text v b.
Proof.
  unfold parseStrToBool, bool_text.
  assert (D : forall c, to_lower v = [c] -> (forall x, tolower x = c -> x = c) -> v = [c]).
  { intros c E U. destruct v as [|x [|y v']]; try discriminate. injection E as E. rewrite (U _ E). reflexivity. }
  assert (U1 : forall x, tolower x = "1"%char -> x = "1"%char) by (intros [b1 b2 b3 b4 b5 b6 b7 b8]; destruct b1, b2, b3, b4, b5, b6, b7, b8; vm_compute; intros H; first [reflexivity|discriminate H]).
  assert (U0 : forall x, tolower x = "0"%char -> x = "0"%char) by (intros [b1 b2 b3 b4 b5 b6 b7 b8]; destruct b1, b2, b3, b4, b5, b6, b7, b8; vm_compute; intros H; first [reflexivity|discriminate H]).
  assert (Vt : caseless v (T "true") <-> to_lower v = T "true") by (apply caseless_iff; reflexivity).
  assert (Vf : caseless v (T "false") <-> to_lower v = T "false") by (apply caseless_iff; reflexivity).
  set (l := to_lower v) in *.
  assert (V1 : v = T "1" <-> l = T "1") by (split; [intros ->; reflexivity|intros E; apply D; assumption]).
  assert (V0 : v = T "0" <-> l = T "0") by (split; [intros ->; reflexivity|intros E; apply D; assumption]).
  clearbody l. clear D U1 U0. assert (E : (if b then caseless v (T "true") \/ v = T "1" else caseless v (T "false") \/ v = T "0") <-> (if b then l = L "true" \/ l = L "1" else l = L "false" \/ l = L "0")) by (destruct b; tauto).
  rewrite E. clear.
  destruct (str_eqb l (L "true")) eqn:E1; [apply str_eqb_eq in E1; subst; destruct b; split; intros H; try discriminate; auto; destruct H; discriminate|].
  destruct (str_eqb l (L "1")) eqn:E2; [apply str_eqb_eq in E2; subst; destruct b; split; intros H; try discriminate; auto; destruct H; discriminate|]. cbn [orb].
  assert (N1 : l <> L "true") by (intros ->; discriminate). assert (N2 : l <> L "1") by (intros ->; discriminate).
  destruct (str_eqb l (L "false")) eqn:E3; [apply str_eqb_eq in E3; subst; destruct b; split; intros H; try discriminate; auto; destruct H; discriminate|].
  destruct (str_eqb l (L "0")) eqn:E4; [apply str_eqb_eq in E4; subst; destruct b; split; intros H; try discriminate; auto; destruct H; discriminate|]. cbn [orb].
  assert (N3 : l <> L "false") by (intros ->; discriminate). assert (N4 : l <> L "0") by (intros ->; discriminate).
  split; [discriminate|]. destruct b; intros [?|?]; contradiction.
Qed.
