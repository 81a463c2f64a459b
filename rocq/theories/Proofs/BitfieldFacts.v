(** Bitfields. *)
From Coq Require Import ZifyBool ZifyNat.
From Verif.Model Require Import Base Common Xml Units Field FieldCommon IntField EnumField SetField FloatField OptCond Composite.
From Verif.Spec Require Import Texts Ints Versions IntSpec EnumSpec CondSpec XmlSpec FieldSpec LengthSpec.
From Verif.Proofs Require Import BaseFacts CommonFacts IntFacts IntInv EnumInv FieldInv FieldFacts OwnFacts LengthFacts.

Lemma clone_bits f : bits_of (clone f) = bits_of f.
Proof. destruct f; reflexivity. Qed.
Lemma bump_bits v f : bits_of (bump_since v f) = bits_of f.
Proof. destruct f; reflexivity. Qed.
Lemma no_children_named n k : (forall m, In m (n_children n) -> n_name m <> k) -> parseGetChildrenNamed n k = [].
Proof.
  intros H. unfold parseGetChildrenNamed, parseGetChildrenOf. induction (n_children n) as [|m l IH]; [reflexivity|]. cbn [filter].
  rewrite IH by (intros y Hy; apply H; right; exact Hy).
  specialize (H m (or_introl eq_refl)). destruct m as [mn ma mc|t|]; cbn; try reflexivity.
  destruct (str_eqb mn k) eqn:E; [|reflexivity]. apply str_eqb_eq in E. contradiction.
Qed.
Theorem bitfield_fills e x n f : parse_field e x n = Ok f -> env_num_ok e -> (forall s g, e_find e s = Some g -> accepted g) ->
  (forall m, In m (n_children n) -> n_name m <> T "replace") ->
  (forall s g, e_find e s = Some g -> fills_bytes g) -> fills_bytes f.
Proof.
  intros H He Ha Hn Hf c' en' ms' v' -> Hs.
  assert (A : all total_ok (FBitfield c' en' ms' v')) by (apply accepted_total; eapply acc; eassumption).
  assert (B : map bit_length ms' = map bits_of ms') by (apply bits_eq; apply all_here in A; apply A).
  assert (N : Forall (fun z => 0 <= z) (map bit_length ms')).
  { apply bits_nonneg. intros g Hg. eapply all_parts in A; [|exact Hg]. eapply all_impl; [|exact A]. unfold total_ok. tauto. }
  apply field_parse_inv in H as (fuel & k & p & c0 & old & repl & c & _ & Hk & Hp & Hr & Hrep & Hc & Hkp & _).
  pose proof (kind_parse_common _ _ _ _ _ _ _ _ _ _ _ Hkp) as (K & _). cbn in K. subst k.
  pose proof (reuse_old_ok _ _ _ _ _ _ Hr) as Ho.
  apply bitfield_inv in Hkp as (en & ms & vc & ms0 & E & H1 & H2 & _); [|exact Ho]. injection E as -> -> -> ->.
  unfold replacements in Hrep. rewrite (no_children_named n (L "replace") Hn) in Hrep. injection Hrep as <-. cbn in H1. injection H1 as <-.
  unfold bitfield_members in H2. apply bind_Ok in H2 as (ns & _ & H2). destruct ns as [ns|].
  - inv_ok. subst. rewrite (sum_u64_spec _ N) in *. rewrite B in *. pose proof (total_nonneg _ N).
    repeat match goal with X : _ && _ = true |- _ => apply andb_true_iff in X as [? ?] end.
    change two64 with (2 ^ 64) in *. rewrite Z.mod_small in * by lia. lia.
  - apply bind_Ok in H2 as (u & _ & H2). assert (E : map bits_of ms = map bits_of (old_members old)).
    { injection H2 as <-. rewrite !map_map. apply map_ext. intros g. rewrite bump_bits, clone_bits. reflexivity. }
    rewrite E in *. apply check_reuse_old in Hr as [_ Hr]. destruct (find_prop p (L "reuse")).
    + destruct Hr as (g & Eo & Hg & Kg & _). subst old. specialize (Hf _ _ Hg). destruct g; try discriminate Kg.
      cbn [old_members f_members] in *. eapply Hf; [reflexivity|exact Hs].
    + destruct Hr as [-> _]. cbn. split; [reflexivity|lia].
Qed.
