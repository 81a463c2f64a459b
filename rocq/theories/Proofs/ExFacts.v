From Verif.Model Require Import Base Common Xml Units Field FieldCommon IntField Composite.
From Verif.Spec Require Import Texts Ints Versions IntSpec FieldSpec Ex.
From Verif.Proofs Require Import BaseFacts CommonFacts.

Lemma ex_fenv_ok l : env_num_ok (ex_fenv l).
Proof. intros s v b H. discriminate. Qed.
Lemma ex_fenv_find l : Forall (fun a => accepted (snd a)) l -> forall s g, e_find (ex_fenv l) s = Some g -> accepted g.
Proof.
  intros H s g E. cbn [ex_fenv e_find] in E. revert E. induction l as [|[k f] l IH]; cbn; [discriminate|].
  inversion H; subst. destruct (str_eqb (list_ascii_of_string k) s); [intros Y; injection Y as <-; assumption|]. apply IH. assumption.
Qed.
Lemma ex_accepted l x n f : Forall (fun a => accepted (snd a)) l -> parse_field (ex_fenv l) x n = Ok f -> accepted f.
Proof. intros H E. eapply acc; [apply ex_fenv_ok|apply ex_fenv_find; exact H|exact E]. Qed.
Lemma got_accepted l x n : Forall (fun a => accepted (snd a)) l -> is_Ok (parse_field (ex_fenv l) x n) = true ->
  accepted (got_field (parse_field (ex_fenv l) x n)).
Proof. intros H E. destruct (parse_field (ex_fenv l) x n) eqn:X; try discriminate. cbn. eapply ex_accepted; eassumption. Qed.
Lemma global_accepted l n : Forall (fun a => accepted (snd a)) l -> is_Ok (ex_global l n) = true -> accepted (got_field (ex_global l n)).
Proof. apply got_accepted. Qed.
Ltac ex_acc := repeat match goal with
  | |- Forall _ [] => constructor
  | |- Forall _ (_ :: _) => constructor; cbn [snd]
  | |- accepted _ => apply global_accepted; [|vm_compute; reflexivity]
  end.
Fixpoint reuse_free (n : node) : bool :=
  match n with
  | Elem _ a ch => forallb (fun kv => negb (str_eqb (fst kv) (L "reuse"))) a &&
      (fix go (l : list node) : bool := match l with [] => true | m :: l' => negb (str_eqb (n_name m) (L "reuse")) && reuse_free m && go l' end) ch
  | _ => true
  end.
Lemma reuse_free_spec : forall n, reuse_free n = true -> without_reuse n.
Proof.
  fix IH 1. intros [nm a ch|t|] H.
  2,3: constructor; cbn; intros; contradiction.
  cbn [reuse_free] in H. apply andb_true_iff in H as [H1 H2]. rewrite forallb_forall in H1.
  assert (K : forall m, In m ch -> n_name m <> L "reuse" /\ without_reuse m).
  { clear H1 a nm. revert H2. induction ch as [|m ch IHch]; intros H2 y Hy; [destruct Hy|].
    apply andb_true_iff in H2 as [H2 H3]. apply andb_true_iff in H2 as [H2 H4]. destruct Hy as [<-|Hy]; [|apply IHch; assumption].
    split; [|apply IH; exact H4]. intros E. rewrite E, str_eqb_refl in H2. discriminate. }
  constructor; cbn [n_attrs n_children].
  - intros k v Hk E. specialize (H1 _ Hk). cbn in H1. rewrite E in H1. change (T "reuse") with (L "reuse") in H1.
    rewrite str_eqb_refl in H1. discriminate.
  - intros m Hm. apply (K m Hm).
  - intros m Hm. apply (K m Hm).
Qed.
(** a decidable property of all parts of a field *)
Fixpoint every (q : field -> bool) (f : field) : bool :=
  q f && match f with
  | FBitfield _ _ ms _ | FBundle _ ms _ _ | FVariant _ _ ms => forallb (every q) ms
  | FString _ _ pre | FData _ _ pre => match pre with Some (_, g) => every q g | None => true end
  | FList _ _ (_, g) a b d t => every q g &&
      match a with Some (_, g) => every q g | None => true end && match b with Some (_, g) => every q g | None => true end &&
      match d with Some (_, g) => every q g | None => true end && match t with Some (_, g) => every q g | None => true end
  | FRef _ _ t => every q t
  | FOptional _ _ _ g _ => every q g
  | _ => true
  end.
Lemma every_spec q f g : every q f = true -> part_of g f -> q g = true.
Proof.
  intros H P. revert H. induction P as [f|g h f Hh P IH]; intros H; [destruct f; cbn [every] in H; apply andb_true_iff in H; apply H|].
  apply IH. destruct f; cbn [every] in H; apply andb_true_iff in H as [_ H]; cbn [parts] in Hh;
    try contradiction; try (rewrite forallb_forall in H; auto; fail).
  - destruct pre as [[o y]|]; [destruct Hh as [<-|[]]; exact H|destruct Hh].
  - destruct pre as [[o y]|]; [destruct Hh as [<-|[]]; exact H|destruct Hh].
  - destruct elem as [o y]. cbn [snd In] in Hh. repeat rewrite in_app_iff in Hh. repeat rewrite andb_true_iff in H.
    destruct H as [[[[H1 H2] H3] H4] H5]. destruct Hh as [<-|[K|[K|[K|K]]]]; [exact H1|..].
    + destruct cnt as [[? ?]|]; [destruct K as [<-|[]]; assumption|destruct K].
    + destruct len as [[? ?]|]; [destruct K as [<-|[]]; assumption|destruct K].
    + destruct elemLen as [[? ?]|]; [destruct K as [<-|[]]; assumption|destruct K].
    + destruct term as [[? ?]|]; [destruct K as [<-|[]]; assumption|destruct K].
  - destruct Hh as [<-|[]]. exact H.
  - destruct Hh as [<-|[]]. exact H.
Qed.
