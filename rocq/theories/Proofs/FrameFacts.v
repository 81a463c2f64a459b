(** Layers of accepted frames. *)
From Verif.Model Require Import Base Common Xml Units Field FieldCommon IntField EnumField SetField FloatField OptCond Composite Message Frame Protocol.
From Verif.Spec Require Import Texts IntSpec XmlSpec FieldSpec ProtocolSpec FrameSpec.
From Verif.Proofs Require Import BaseFacts CommonFacts ProtocolFacts RefFacts.

Lemma layer_kind_eqb_eq a b : layer_kind_eqb a b = true <-> a = b.
Proof. destruct a, b; cbn; split; intros H; try discriminate; reflexivity. Qed.
Lemma find_idx_first {A} (h : A -> bool) l i : find_idx h l = Some i <->
  (exists x, nth_error l i = Some x /\ h x = true) /\ forall j x, (j < i)%nat -> nth_error l j = Some x -> h x = false.
Proof.
  revert i. induction l as [|y l IH]; intros i; cbn.
  - split; [discriminate|]. intros [(x & X & _) _]. destruct i; discriminate.
  - destruct (h y) eqn:E.
    + split; [intros [= <-]; split; [exists y; auto|intros j x J; lia]|]. intros [_ H]. destruct i as [|i]; [reflexivity|]. specialize (H O y ltac:(lia) eq_refl). congruence.
    + destruct (find_idx h l) as [k|] eqn:F; cbn.
      * split.
        -- intros [= <-]. specialize (IH k). destruct IH as [IH _]. specialize (IH eq_refl) as [Hx Hf].
           split; [exact Hx|]. intros [|j] x J X; cbn in X; [congruence|]. apply (Hf j); [lia|exact X].
        -- intros [(x & X & Hx) Hf]. destruct i as [|i]; cbn in X; [congruence|].
           assert (G : Some k = Some i) by (apply IH; split; [eauto|intros j z J Z; apply (Hf (S j)); [lia|exact Z]]). congruence.
      * split; [discriminate|]. intros [(x & X & Hx) Hf]. destruct i as [|i]; cbn in X; [congruence|].
        assert (G : None = Some i) by (apply IH; split; [eauto|intros j z J Z; apply (Hf (S j)); [lia|exact Z]]). discriminate.
Qed.
Lemma name_idx_named f name i : name_idx (fr_layers f) name = Some i <-> named_at f name i.
Proof.
  unfold name_idx, named_at, layer_at. rewrite find_idx_first. split; intros [(l & A & B) C]; (split; [exists l; split; [exact A|apply str_eqb_eq; exact B]|]); intros j x J X.
  - specialize (C _ _ J X). intros E. rewrite E, str_eqb_refl in C. discriminate.
  - apply not_true_is_false. intros E. apply str_eqb_eq in E. exact (C _ _ J X E).
Qed.
Lemma verify_from_at e ls l : forall i j x, verify_from e ls i l = true -> nth_error l j = Some x -> layer_verify e ls (i + j) x = true.
Proof.
  induction l as [|y l IH]; intros i j x H X; [destruct j; discriminate|]. cbn in H. apply andb_true_iff in H as [H1 H2]. destruct j as [|j]; cbn in X.
  - injection X as ->. rewrite Nat.add_0_r. exact H1.
  - rewrite <- plus_n_Sm. apply (IH (S i)); assumption.
Qed.
Lemma single_layer_unique ls k i j a b : single_layer ls k = true -> nth_error ls i = Some a -> nth_error ls j = Some b -> ly_kind a = k -> ly_kind b = k -> i = j.
Proof.
  unfold single_layer. intros H. apply Nat.leb_le in H. revert i j H. induction ls as [|x ls IH]; intros i j H A B Ka Kb; [destruct i; discriminate|].
  assert (N : forall j c, nth_error ls j = Some c -> ly_kind c = k -> ly_kind x <> k).
  { intros j' c C Kc Kx. cbn in H. rewrite Kx in H. rewrite (proj2 (layer_kind_eqb_eq k k) eq_refl) in H. cbn in H.
    assert (I : In c (filter (fun l => layer_kind_eqb (ly_kind l) k) ls)) by (apply filter_In; split; [eapply nth_error_In; exact C|apply layer_kind_eqb_eq; exact Kc]).
    destruct (filter _ ls); [destruct I|cbn in H; lia]. }
  destruct i as [|i], j as [|j]; cbn in A, B; [reflexivity| | |].
  - injection A as ->. exfalso. exact (N _ _ B Kb Ka).
  - injection B as ->. exfalso. exact (N _ _ A Ka Kb).
  - f_equal. apply (IH i j); auto. cbn in H. destruct (layer_kind_eqb (ly_kind x) k); cbn in H; lia.
Qed.
Record frame_verified (e : env) (f : frame) : Prop := {
  fv_payload : exists p, kind_idx (fr_layers f) LPayload = Some p;
  fv_layers : forall i l, layer_at f i l -> layer_verify e (fr_layers f) i l = true }.
Lemma frame_parse_verified me n f : frame_parse me n = Ok f -> frame_verified (me_env me) f.
Proof.
  unfold frame_parse. intros H. do 6 (apply bind_Ok in H as (? & _ & H)). apply bind_Ok in H as (ls & _ & H). apply bind_Ok in H as (u & G1 & H). apply bind_Ok in H as (u' & G2 & H).
  apply guard_Ok in G1, G2. injection H as <-. constructor; cbn [fr_layers].
  - destruct (kind_idx ls LPayload); [eauto|discriminate].
  - intros i l H. exact (verify_from_at _ _ _ O i l G2 H).
Qed.
Lemma payload_idx f p : kind_idx (fr_layers f) LPayload = Some p -> payload_at f p.
Proof. unfold kind_idx. intros H. apply find_idx_first in H as [(x & A & B) _]. exists x. split; [exact A|apply layer_kind_eqb_eq; exact B]. Qed.
Lemma payload_unique e f p q : frame_verified e f -> payload_at f p -> payload_at f q -> p = q.
Proof.
  intros V (a & A & Ka) (b & B & Kb). pose proof (fv_layers _ _ V _ _ A) as X. unfold layer_verify in X. unfold ly_kind in Ka. destruct (ly_spec a) eqn:E; try discriminate Ka.
  eapply single_layer_unique; [exact X|exact A|exact B|unfold ly_kind; rewrite E; reflexivity|exact Kb].
Qed.
Lemma payload_kind_idx e f p : frame_verified e f -> payload_at f p -> kind_idx (fr_layers f) LPayload = Some p.
Proof. intros V P. destruct (fv_payload _ _ V) as [q Q]. rewrite Q. f_equal. eapply payload_unique; [exact V|apply payload_idx; exact Q|exact P]. Qed.
Lemma before_payload_spec e f i p : frame_verified e f -> payload_at f p -> before_payload (fr_layers f) i = true -> (i < p)%nat.
Proof. intros V P H. unfold before_payload in H. rewrite (payload_kind_idx _ _ _ V P) in H. apply Nat.ltb_lt. exact H. Qed.
Lemma checksum_verify_place f order i from until : checksum_verify order (fr_layers f) i from until = true -> checksum_place f i from until.
Proof.
  unfold checksum_verify. intros H. apply andb_true_iff in H as [H H3]. apply andb_true_iff in H as [H1 H2]. split; [|split].
  - destruct from as [|c from]; [|left; intros X; discriminate X]. destruct until as [|c until]; [discriminate H1|right; intros X; discriminate X].
  - intros N. destruct from as [|c from]; [contradiction|]. cbn [is_nil orb] in H2. destruct (name_idx _ (c :: from)) as [j|] eqn:E; [|discriminate]. apply andb_true_iff in H2 as [H2 _].
    exists j. split; [apply name_idx_named; exact E|apply Nat.ltb_lt; exact H2].
  - intros N. destruct until as [|c until]; [contradiction|]. cbn [is_nil orb] in H3. destruct (name_idx _ (c :: until)) as [j|] eqn:E; [|discriminate].
    exists j. split; [apply name_idx_named; exact E|apply Nat.ltb_lt; exact H3].
Qed.
Lemma nth_error_skipn' {A} n (l : list A) i : nth_error (skipn n l) i = nth_error l (n + i).
Proof. revert l. induction n; intros l; [reflexivity|]. destruct l; cbn; [destruct i; reflexivity|apply IHn]. Qed.
Lemma nth_error_firstn' {A} n (l : list A) i : (i < n)%nat -> nth_error (firstn n l) i = nth_error l i.
Proof. revert l i. induction n; intros l i H; [lia|]. destruct l; cbn; [reflexivity|]. destruct i; cbn; [reflexivity|]. apply IHn. lia. Qed.
Lemma suffix_order_spec f p i j a la ja : suffix_order (fr_layers f) p i j = true -> (p < a < i)%nat -> layer_at f a la -> layer_from la <> [] ->
  named_at f (layer_from la) ja -> (j <= ja)%nat.
Proof.
  unfold suffix_order. intros H R A N J. rewrite forallb_forall in H.
  assert (I : In la (firstn (i - S p) (skipn (S p) (fr_layers f)))).
  { apply (nth_error_In _ (a - S p)). rewrite nth_error_firstn' by lia. rewrite nth_error_skipn'. replace (S p + (a - S p))%nat with a by lia. exact A. }
  specialize (H _ I). destruct (layer_from la) as [|c t] eqn:E; [contradiction|]. cbn [is_nil orb] in H. apply name_idx_named in J. rewrite J in H. apply Nat.leb_le. exact H.
Qed.
Lemma named_unique f name i j : named_at f name i -> named_at f name j -> i = j.
Proof. intros H1 H2. apply name_idx_named in H1, H2. congruence. Qed.
