(** Order and uniqueness of messages (C29, C30). *)
From Coq Require Import Sorting.Sorted Sorting.Permutation ZifyBool.
From Verif.Model Require Import Base Common Xml Units Field FieldCommon IntField EnumField SetField FloatField OptCond Composite Message Frame Protocol.
From Verif.Spec Require Import Texts IntSpec FieldSpec ProtocolSpec.
From Verif.Proofs Require Import BaseFacts CommonFacts RangeFacts MapFacts ProtocolFacts RefFacts.

Definition msg_le (a b : message) : Prop := m_id a < m_id b \/ m_id a = m_id b /\ m_order a <= m_order b.
Lemma msg_ltb_spec a b : msg_ltb a b = true <-> m_id a < m_id b \/ m_id a = m_id b /\ m_order a < m_order b.
Proof. unfold msg_ltb. destruct (Z.eqb_spec (m_id a) (m_id b)); lia. Qed.
Lemma msg_ltb_le a b : msg_ltb b a = false <-> msg_le a b.
Proof. unfold msg_ltb, msg_le. destruct (Z.eqb_spec (m_id b) (m_id a)); lia. Qed.
Lemma msg_sorted l : StronglySorted msg_le (isort msg_ltb l).
Proof.
  assert (S : StronglySorted (fun a b => msg_ltb b a = false) (isort msg_ltb l)).
  { apply (sort_sorted msg_ltb (fun _ => True)).
    - intros a b _ _. rewrite msg_ltb_spec, msg_ltb_le. unfold msg_le. lia.
    - intros a b c _ _ _. rewrite !msg_ltb_le. unfold msg_le. lia.
    - apply Forall_forall. auto. }
  induction S as [|x l' S IH F]; constructor; [exact IH|]. eapply Forall_impl; [|exact F]. intros b. apply msg_ltb_le.
Qed.
Lemma ids_pairs allowed l : StronglySorted msg_le l -> ids_ok allowed l = true ->
  ForallOrdPairs (fun a b => m_id a <> m_id b \/ allowed = true /\ m_order a <> m_order b) l.
Proof.
  induction 1 as [|a l S IH F]; intros H; [constructor|]. destruct l as [|b l]; [constructor; [constructor|constructor]|].
  cbn [ids_ok] in H. apply andb_true_iff in H as [H1 H2]. specialize (IH H2). constructor; [|exact IH].
  assert (X : m_id a < m_id b \/ allowed = true /\ m_id a = m_id b /\ m_order a < m_order b).
  { inversion F as [|? ? L _]; subst. unfold msg_le in L. destruct (Z.eqb_spec (m_id a) (m_id b)), allowed; cbn in H1; try discriminate; lia. }
  apply Forall_forall. intros c C. assert (L : b = c \/ msg_le b c).
  { destruct C as [->|C]; [left; reflexivity|]. right. inversion S as [|? ? _ G]; subst. rewrite Forall_forall in G. apply G. exact C. }
  unfold msg_le in L. destruct L as [->|L]; destruct X as [X|(X0 & X)]; try (left; lia); destruct (Z.eq_dec (m_id a) (m_id c)); try (left; lia); right; split; auto; lia.
Qed.
Lemma pairs_perm {A} (R : A -> A -> Prop) l l' : (forall a b, R a b -> R b a) -> Permutation l l' -> ForallOrdPairs R l -> ForallOrdPairs R l'.
Proof.
  intros Sym. induction 1 as [|x l l' P IH|x y l|l1 l2 l3 P1 IH1 P2 IH2]; intros O; auto.
  - inversion O; subst. constructor; [|auto]. rewrite <- P. assumption.
  - inversion O as [|? ? F1 O1]; subst. inversion O1 as [|? ? F2 O2]; subst. inversion F1 as [|? ? X F3]; subst. constructor; [constructor; [auto|assumption]|constructor; assumption].
Qed.
Theorem validate_messages_ok multi stod docs s : validate multi stod docs = Ok s -> forall sc k n, In sc (pr_schemas s) -> In (k, n) (sc_ns sc) ->
  ns_validate_messages (sc_nonUnique sc) n = true.
Proof.
  intros H sc k n Hs Hn. unfold validate in H. apply bind_Ok in H as (u & _ & H). apply bind_Ok in H as (s' & _ & H). apply bind_Ok in H as (u' & G & H). injection H as ->.
  unfold guard in G. destruct (forallb schema_validate_messages (pr_schemas s)) eqn:E; [|discriminate]. rewrite forallb_forall in E. specialize (E _ Hs).
  unfold schema_validate_messages in E. rewrite forallb_forall in E. exact (E _ Hn).
Qed.
