(** std::map as sorted association lists. *)
From Coq Require Import Sorting.Sorted.
From Verif.Model Require Import Base Common Xml Units Field FieldCommon IntField EnumField SetField FloatField OptCond Composite Message Frame Protocol.
From Verif.Proofs Require Import BaseFacts.

Lemma N_of_ascii_inj a b : N_of_ascii a = N_of_ascii b -> a = b.
Proof. intros H. rewrite <- (ascii_N_embedding a), <- (ascii_N_embedding b), H. reflexivity. Qed.
Lemma ascii_eqb_spec a b : Ascii.eqb a b = true <-> a = b.
Proof. apply Ascii.eqb_eq. Qed.
Lemma str_ltb_irrefl a : str_ltb a a = false.
Proof. induction a as [|x a IH]; cbn; [reflexivity|]. rewrite IH, N.ltb_irrefl, andb_false_r. reflexivity. Qed.
Lemma str_ltb_cases x a y b : str_ltb (x :: a) (y :: b) = true <->
  (N_of_ascii x < N_of_ascii y)%N \/ x = y /\ str_ltb a b = true.
Proof. cbn. rewrite orb_true_iff, andb_true_iff, N.ltb_lt, ascii_eqb_spec. tauto. Qed.
Lemma str_ltb_trans a : forall b c, str_ltb a b = true -> str_ltb b c = true -> str_ltb a c = true.
Proof.
  induction a as [|x a IH]; intros [|y b] [|z c] H1 H2; try discriminate; [reflexivity|].
  apply str_ltb_cases in H1. apply str_ltb_cases in H2. apply str_ltb_cases.
  destruct H1 as [H1|[-> H1]], H2 as [H2|[-> H2]]; auto; [left; eapply N.lt_trans; eassumption|].
  right. split; [reflexivity|]. eapply IH; eassumption.
Qed.
Lemma str_ltb_total a : forall b, str_ltb a b = false -> str_ltb b a = false -> a = b.
Proof.
  induction a as [|x a IH]; intros [|y b] H1 H2; try discriminate; [reflexivity|].
  cbn in H1, H2. apply orb_false_iff in H1 as [H1 H3]. apply orb_false_iff in H2 as [H2 H4].
  apply N.ltb_ge in H1. apply N.ltb_ge in H2. assert (x = y) as -> by (apply N_of_ascii_inj; lia).
  assert (E : Ascii.eqb y y = true) by (apply ascii_eqb_spec; reflexivity). rewrite E in H3, H4. cbn in H3, H4.
  f_equal. apply IH; assumption.
Qed.
Lemma key_ltb_irrefl a : key_ltb a a = false.
Proof. apply str_ltb_irrefl. Qed.
Lemma key_ltb_trans a b c : key_ltb a b = true -> key_ltb b c = true -> key_ltb a c = true.
Proof. apply str_ltb_trans. Qed.
Lemma key_ltb_total a b : key_ltb a b = false -> key_ltb b a = false -> key_norm a = key_norm b.
Proof. apply str_ltb_total. Qed.

Section Facts.
Context {A : Type} (lt : str -> str -> bool) (norm : str -> str).
Hypothesis irrefl : forall a, lt a a = false.
Hypothesis trans : forall a b c, lt a b = true -> lt b c = true -> lt a c = true.
Hypothesis total : forall a b, lt a b = false -> lt b a = false -> norm a = norm b.
Hypothesis normal : forall a b, norm a = norm b -> lt a b = false.
Definition sorted_map (l : list (str * A)) : Prop := StronglySorted (fun a b => lt (fst a) (fst b) = true) l.

Lemma map_find_In k (v : A) (l : list (str * A)) : map_find lt k l = Some v -> exists k', In (k', v) l /\ norm k' = norm k.
Proof.
  induction l as [|[k' w] l IH]; cbn; [discriminate|].
  destruct (lt k k') eqn:E1; [|destruct (lt k' k) eqn:E2]; cbn.
  - intros H. destruct (IH H) as (x & Hx & N). eauto.
  - intros H. destruct (IH H) as (x & Hx & N). eauto.
  - intros [= ->]. exists k'. split; [left; reflexivity|]. auto.
Qed.
Lemma map_find_norm k k' (l : list (str * A)) : norm k = norm k' -> map_find lt k l = map_find lt k' l.
Proof.
  intros N. induction l as [|[x w] l IH]; cbn; [reflexivity|]. rewrite IH.
  assert (forall a b, norm a = norm b -> (lt x a = true -> lt x b = true) /\ (lt a x = true -> lt b x = true)) as X.
  { intros a b E. split; intros P.
    - destruct (lt x b) eqn:Q; [reflexivity|]. exfalso. destruct (lt b x) eqn:R.
      + pose proof (trans _ _ _ R P) as T. rewrite (normal b a (eq_sym E)) in T. discriminate.
      + pose proof (total _ _ Q R) as T. rewrite (normal x a) in P; congruence.
    - destruct (lt b x) eqn:Q; [reflexivity|]. exfalso. destruct (lt x b) eqn:R.
      + pose proof (trans _ _ _ P R) as T. rewrite (normal a b E) in T. discriminate.
      + pose proof (total _ _ Q R) as T. rewrite (normal a x) in P; congruence. }
  destruct (X k k' N) as [X1 X2], (X k' k (eq_sym N)) as [X3 X4].
  destruct (lt x k), (lt x k'), (lt k x), (lt k' x); try reflexivity; try (specialize (X1 eq_refl)); try (specialize (X2 eq_refl)); try (specialize (X3 eq_refl)); try (specialize (X4 eq_refl)); congruence.
Qed.
Lemma map_find_sorted k (v : A) (l : list (str * A)) : sorted_map l -> In (k, v) l -> map_find lt k l = Some v.
Proof.
  induction 1 as [|[k' w] l S IH F]; cbn; [tauto|]. intros [[= -> ->]|H].
  - rewrite irrefl. reflexivity.
  - rewrite Forall_forall in F. pose proof (F _ H) as X. cbn in X. rewrite X. rewrite andb_false_r. auto.
Qed.
Lemma map_put_In k (v : A) (l : list (str * A)) x : In x (map_put lt k v l) -> In x l \/ (snd x = v /\ norm (fst x) = norm k).
Proof.
  induction l as [|[k' w] l IH]; cbn; [intros [<-|[]]; auto|].
  destruct (lt k k') eqn:E1; [|destruct (lt k' k) eqn:E2]; cbn; intros [<-|H]; auto.
  apply IH in H. tauto.
Qed.
Lemma map_put_other k (v : A) (l : list (str * A)) x : In x l -> norm (fst x) <> norm k -> In x (map_put lt k v l).
Proof.
  induction l as [|[k' w] l IH]; cbn; [tauto|]. intros H N.
  destruct (lt k k') eqn:E1; [|destruct (lt k' k) eqn:E2]; cbn.
  - tauto.
  - destruct H; auto.
  - destruct H as [<-|H]; [|auto]. cbn in N. destruct N. auto.
Qed.
Lemma map_put_find k (v : A) (l : list (str * A)) : map_find lt k (map_put lt k v l) = Some v.
Proof.
  induction l as [|[k' w] l IH]; cbn; [rewrite irrefl; reflexivity|].
  destruct (lt k k') eqn:E1; [|destruct (lt k' k) eqn:E2]; cbn.
  - rewrite irrefl. reflexivity.
  - rewrite E1, E2. cbn. exact IH.
  - rewrite E1, E2. reflexivity.
Qed.
Lemma map_put_new k (v : A) (l : list (str * A)) : map_find lt k l = None -> In (k, v) (map_put lt k v l) /\ (forall x, In x l -> In x (map_put lt k v l)).
Proof.
  induction l as [|[k' w] l IH]; cbn; [intros _; split; [auto|tauto]|].
  destruct (lt k k') eqn:E1; [|destruct (lt k' k) eqn:E2]; cbn; intros H.
  - split; [auto|tauto].
  - destruct (IH H) as [I1 I2]. split; [auto|]. intros x [<-|Hx]; auto.
  - discriminate.
Qed.
Lemma map_put_sorted k (v : A) (l : list (str * A)) : sorted_map l -> sorted_map (map_put lt k v l).
Proof.
  induction 1 as [|[k' w] l S IH F]; cbn; [repeat constructor|].
  destruct (lt k k') eqn:E1; [|destruct (lt k' k) eqn:E2].
  - constructor; [constructor; assumption|]. constructor; [exact E1|].
    rewrite Forall_forall in *. intros x Hx. cbn. eapply trans; [exact E1|]. exact (F x Hx).
  - constructor; [exact IH|]. rewrite Forall_forall in *. intros x Hx. apply map_put_In in Hx as [Hx|[_ Hx]]; [exact (F x Hx)|].
    cbn in *. destruct (lt k' (fst x)) eqn:E; [reflexivity|]. exfalso.
    destruct (lt (fst x) k') eqn:E'.
    + pose proof (trans _ _ _ E' E2) as T. rewrite (normal _ _ Hx) in T. discriminate.
    + pose proof (total _ _ E E') as T. rewrite (normal k' k) in E2; [discriminate|congruence].
  - constructor; assumption.
Qed.
End Facts.

Lemma str_normal a b : a = b -> str_ltb a b = false.
Proof. intros ->. apply str_ltb_irrefl. Qed.
Lemma key_normal a b : key_norm a = key_norm b -> key_ltb a b = false.
Proof. unfold key_ltb. intros ->. apply str_ltb_irrefl. Qed.
#[export] Hint Resolve str_ltb_irrefl key_ltb_irrefl str_ltb_trans key_ltb_trans str_ltb_total key_ltb_total str_normal key_normal : maps.
Section Instances.
Context {A : Type}.
Implicit Types (v : A) (l : list (str * A)).
Lemma sfind_In k v l : map_find str_ltb k l = Some v -> In (k, v) l.
Proof. intros H. apply (map_find_In str_ltb (fun s => s)) in H as (k' & H & <-); eauto with maps. Qed.
Lemma kfind_In k v l : map_find key_ltb k l = Some v -> exists k', In (k', v) l /\ key_norm k' = key_norm k.
Proof. apply map_find_In; eauto with maps. Qed.
Lemma sfind_sorted k v l : sorted_map str_ltb l -> In (k, v) l -> map_find str_ltb k l = Some v.
Proof. apply map_find_sorted; eauto with maps. Qed.
Lemma kfind_sorted k v l : sorted_map key_ltb l -> In (k, v) l -> map_find key_ltb k l = Some v.
Proof. apply map_find_sorted; eauto with maps. Qed.
Lemma sput_sorted k v l : sorted_map str_ltb l -> sorted_map str_ltb (map_put str_ltb k v l).
Proof. apply (map_put_sorted str_ltb (fun s => s)); eauto with maps. Qed.
Lemma kput_sorted k v l : sorted_map key_ltb l -> sorted_map key_ltb (map_put key_ltb k v l).
Proof. apply (map_put_sorted key_ltb key_norm); eauto with maps. Qed.
Lemma sput_In k v l x : In x (map_put str_ltb k v l) -> In x l \/ x = (k, v).
Proof. intros H. apply (map_put_In str_ltb (fun s => s)) in H as [H|[H1 H2]]; eauto with maps. destruct x. cbn in *. subst. auto. Qed.
Lemma sput_new k v l : map_find str_ltb k l = None -> In (k, v) (map_put str_ltb k v l) /\ (forall x, In x l -> In x (map_put str_ltb k v l)).
Proof. apply map_put_new; eauto with maps. Qed.
Lemma kput_new k v l : map_find key_ltb k l = None -> In (k, v) (map_put key_ltb k v l) /\ (forall x, In x l -> In x (map_put key_ltb k v l)).
Proof. apply map_put_new; eauto with maps. Qed.
Lemma kput_new_In k v l x : map_find key_ltb k l = None -> In x (map_put key_ltb k v l) -> In x l \/ x = (k, v).
Proof.
  induction l as [|[k' w] l IH]; cbn; [intros _ [<-|[]]; auto|].
  destruct (key_ltb k k') eqn:E1; [|destruct (key_ltb k' k) eqn:E2]; cbn; intros H; try discriminate.
  - intros [<-|X]; auto.
  - intros [<-|X]; auto. destruct (IH H X); auto.
Qed.
End Instances.
