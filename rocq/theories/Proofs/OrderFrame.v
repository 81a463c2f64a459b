(** Accepted frames meet what OrderFacts.v asks for. *)
From Coq Require Import Permutation.
From Verif.Model Require Import Base Common Xml Units Field FieldCommon Composite Message Frame Protocol GenOrder.
From Verif.Spec Require Import Texts XmlSpec FrameSpec DslSpec OrderSpec.
From Verif.Proofs Require Import BaseFacts FrameFacts OrderFacts.
Local Open Scope nat_scope. Local Open Scope list_scope.

Lemma inside_before o i x : NoDup o -> inside_of o i x <-> before o i x.
Proof.
  intro Nd. split.
  - intros (a & b & -> & I). now apply before_mid.
  - intro B. destruct (in_split i o (before_In_l _ _ _ B)) as (a & b & ->). exists a, b. split; [reflexivity|].
    assert (I : In x (i :: b)) by (eapply before_side; [exact Nd|exact B|now left]). destruct I as [<-|I]; [|exact I]. exfalso. exact (before_irrefl _ _ Nd B).
Qed.
Lemma wire_filter p o : wire (fun i => p < i) o (filter (fun x => x <=? p) o ++ rev (filter (fun x => p <? x) o)).
Proof.
  induction o as [|x o IH]; [reflexivity|]. cbn [wire filter]. destruct (Nat.leb_spec x p) as [L|L], (Nat.ltb_spec p x) as [G|G]; try lia.
  - eexists. split; [exact IH|]. right. split; [lia|reflexivity].
  - eexists. split; [exact IH|]. left. split; [exact G|]. cbn [rev]. now rewrite app_assoc.
Qed.
Lemma find_idx_some {A} (h : A -> bool) l x : In x l -> h x = true -> exists i, find_idx h l = Some i.
Proof. induction l as [|a l IH]; [intros []|]. intros I H. cbn. destruct (h a) eqn:E; [now exists 0|]. destruct I as [->|I]; [congruence|]. destruct (IH I H) as [i ->]. now exists (S i). Qed.
Lemma find_idx_none {A} (h : A -> bool) l : (forall x, In x l -> h x = false) -> find_idx h l = None.
Proof. induction l as [|a l IH]; [reflexivity|]. intro H. cbn. rewrite (H a (or_introl eq_refl)), IH; [reflexivity|]. intros; apply H; now right. Qed.
Lemma position_split (x : nat) l1 l2 : ~ In x l1 -> skipn (length l1) (l1 ++ x :: l2) = x :: l2.
Proof. intros _. rewrite skipn_app, skipn_all, Nat.sub_diag. reflexivity. Qed.
Lemma find_named_some {A} (h : A -> bool) l x : In x l -> h x = true -> (forall y, In y l -> h y = true -> y = x) -> find h l = Some x.
Proof.
  induction l as [|a l IH]; [intros []|]. intros I H U. cbn. destruct (h a) eqn:E; [f_equal; apply U; [now left|exact E]|].
  destruct I as [->|I]; [congruence|]. apply IH; [exact I|exact H|]. intros; apply U; [now right|assumption].
Qed.

Lemma before_In_r l a b : before l a b -> In b l.
Proof. intros (l1 & l2 & -> & A & B). apply in_or_app. now right. Qed.

Section Discharge.
  Variables (e : env) (f : frame) (p : nat).
  Hypothesis V : frame_verified e f.
  Hypothesis P : payload_at f p.
  Hypothesis Nd : NoDup (map ly_name (fr_layers f)).
  Hypothesis no_custom : forall i l from, layer_at f i l -> ly_spec l <> SCustom LChecksum from [].
  Hypothesis no_prefix : forall i l a nm from v, layer_at f i l -> ly_spec l = SChecksum a nm from [] v -> p < i.
  Let ls := fr_layers f.
  Let N := length ls.
  Let sup := sync_suffix_supported e.
  Definition placed (i : nat) : bool :=
    match nth_error ls i with
    | Some l =>
        match ly_spec l with
        | SChecksum _ _ _ until _ => is_nil until || named ls until p
        | SCustom LChecksum _ until => named ls until p
        | SCustom _ _ _ => i <=? p
        | SSync _ _ _ _ => sup || (i <=? p)
        | _ => true
        end
    | None => true
    end.
  Definition start (i : nat) : nat :=
    if placed i then
      match nth_error ls i with
      | Some l => if is_nil (layer_from l) then p else match name_idx ls (layer_from l) with Some j => j | None => 0 end
      | None => 0
      end
    else p.
  Lemma pN : p < N.
  Proof. destruct P as (l & A & _). unfold N, ls. apply nth_error_Some. unfold layer_at in A. congruence. Qed.
  Lemma pay : kind_idx ls LPayload = Some p.
  Proof. exact (payload_kind_idx _ _ _ V P). Qed.
  Lemma is_pay x : x < N -> is_payload ls x = Nat.eqb p x.
  Proof.
    intro L. unfold is_payload. destruct (nth_error ls x) as [l|] eqn:E; [|apply nth_error_None in E; unfold N in L; lia].
    destruct (layer_kind_eqb (ly_kind l) LPayload) eqn:K.
    - apply layer_kind_eqb_eq in K. symmetry. apply Nat.eqb_eq. eapply payload_unique; [exact V|exact P|]. exists l. auto.
    - symmetry. apply Nat.eqb_neq. intros <-. destruct P as (l' & A & K'). unfold layer_at in A. fold ls in A. rewrite E in A. injection A as <-.
      apply layer_kind_eqb_eq in K'. congruence.
  Qed.
  Lemma at_layer i : i < N -> exists l, nth_error ls i = Some l /\ layer_verify e ls i l = true.
  Proof. intro L. destruct (nth_error ls i) as [l|] eqn:E; [|apply nth_error_None in E; unfold N in L; lia]. exists l. split; [reflexivity|]. exact (fv_layers _ _ V _ _ E). Qed.
  Lemma named_eq name j : named_at f name j -> forall x, x < N -> named ls name x = Nat.eqb j x.
  Proof.
    intros [(l & A & En) _] x L. unfold named. destruct (nth_error ls x) as [l'|] eqn:E; [|apply nth_error_None in E; unfold N in L; lia].
    destruct (str_eqb (ly_name l') name) eqn:Q.
    - apply str_eqb_eq in Q. symmetry. apply Nat.eqb_eq. rewrite NoDup_nth_error in Nd. apply Nd.
      + rewrite map_length. apply nth_error_Some. unfold layer_at in A. congruence.
      + rewrite !nth_error_map. unfold layer_at in A. fold ls. rewrite E. fold ls in A. rewrite A. cbn. congruence.
    - symmetry. apply Nat.eqb_neq. intros <-. unfold layer_at in A. fold ls in A. rewrite E in A. injection A as ->. rewrite En, str_eqb_refl in Q. discriminate.
  Qed.
  Lemma checksum_until b i from until : checksum_verify b ls i from until = true -> until <> [] -> exists j, named_at f until j /\ i < j.
  Proof. intros H U. apply checksum_verify_place in H as (_ & _ & H). exact (H U). Qed.
  Lemma named_p until j : named_at f until j -> named ls until p = true <-> j = p.
  Proof. intro J. rewrite (named_eq _ _ J p pN), Nat.eqb_eq. reflexivity. Qed.
  Lemma until_eq cur i until j : Permutation cur (seq 0 N) -> i < N -> named_at f until j -> until_order ls cur i until = if named ls until p then Ok (cur, false) else Err.
  Proof.
    intros W L J. unfold until_order. assert (I : forall x, In x cur <-> x < N) by (intro x; rewrite (Permutation_in' eq_refl W), in_seq; lia).
    destruct (position_in i cur) as [a ->]; [now apply I|]. assert (Lj : j < N) by (destruct J as [(l & A & _) _]; apply nth_error_Some; unfold layer_at in A; fold ls in A; congruence).
    rewrite (find_named_some _ _ j).
    - rewrite (is_pay j Lj), (named_eq _ _ J p pN), (Nat.eqb_sym p j). reflexivity.
    - now apply I.
    - rewrite (named_eq _ _ J j Lj). apply Nat.eqb_refl.
    - intros y Y H. apply I in Y. rewrite (named_eq _ _ J y Y) in H. apply Nat.eqb_eq in H. congruence.
  Qed.
  Lemma base_eq_ok cur i : Permutation cur (seq 0 N) -> i <= p -> (i = p \/ before cur i p) -> base_order ls cur i = Ok (cur, false).
  Proof.
    intros W L B. unfold base_order. assert (I : forall x, In x cur <-> x < N) by (intro x; rewrite (Permutation_in' eq_refl W), in_seq; lia). pose proof pN as PN.
    assert (Nc : NoDup cur) by (eapply Permutation_NoDup; [symmetry; exact W|apply seq_NoDup]).
    destruct (in_split i cur) as (a & b & E); [apply I; lia|]. rewrite E at 1. rewrite position_first.
    - rewrite E at 1. rewrite position_split.
      + destruct (find_idx_some (is_payload ls) (i :: b) p) as [k ->]; [|rewrite is_pay by exact PN; apply Nat.eqb_refl|reflexivity].
        destruct B as [<-|B]; [now left|]. rewrite E in B, Nc. eapply before_side; [exact Nc|exact B|now left].
      + rewrite E in Nc. intro H. eapply NoDup_parts; [exact Nc|exact H|now left].
    - rewrite E in Nc. intro H. eapply NoDup_parts; [exact Nc|exact H|now left].
  Qed.
  Lemma base_eq_bad cur i : Permutation cur (seq 0 N) -> p < i < N -> before cur p i -> base_order ls cur i = Err.
  Proof.
    intros W L B. unfold base_order. assert (I : forall x, In x cur <-> x < N) by (intro x; rewrite (Permutation_in' eq_refl W), in_seq; lia). pose proof pN as PN.
    assert (Nc : NoDup cur) by (eapply Permutation_NoDup; [symmetry; exact W|apply seq_NoDup]).
    destruct (in_split i cur) as (a & b & E); [apply I; lia|]. rewrite E at 1.
    assert (Na : ~ In i a) by (rewrite E in Nc; intro H; eapply NoDup_parts; [exact Nc|exact H|now left]). rewrite position_first by exact Na.
    rewrite E at 1. rewrite position_split by exact Na. rewrite find_idx_none; [reflexivity|]. intros x X. assert (X' : In x cur) by (rewrite E; apply in_or_app; now right).
    rewrite is_pay by now apply I. apply Nat.eqb_neq. intros ->. rewrite E in Nc, B. destruct X as [X|X]; [lia|].
    eapply before_asym; [exact Nc|exact B|]. now apply before_mid.
  Qed.
  Lemma from_named i l : p < i < N -> nth_error ls i = Some l -> placed i = true -> layer_from l <> [] ->
    exists j, named_at f (layer_from l) j /\ start i = j /\ j < i /\ suffix_order ls p i j = true.
  Proof.
    intros L E K F. destruct (at_layer i (proj2 L)) as (l' & E' & X). rewrite E in E'. injection E' as <-.
    unfold start. rewrite K. unfold placed in K. rewrite E in *. unfold layer_verify in X. unfold layer_from in *. destruct (ly_spec l) as [| | |seek esc vbr from|a nm from until vbr|ifs fn ps|sem from until] eqn:S; try (now contradiction F).
    - unfold sync_verify in X. fold sup in X. destruct sup; cbn [negb orb] in *; [|apply Nat.leb_le in K; lia]. rewrite pay in X.
      destruct (Nat.ltb_spec p i); [|lia]. apply andb_true_iff in X as [_ X]. destruct from as [|c from]; [contradiction|]. cbn [is_nil orb] in *.
      destruct (name_idx ls (c :: from)) as [j|] eqn:J; [|discriminate]. apply andb_true_iff in X as [X1 X2]. apply Nat.leb_le in X1. exists j.
      split; [now apply name_idx_named|]. split; [reflexivity|]. split; [lia|exact X2].
    - unfold checksum_verify in X. apply andb_true_iff in X as [X _]. apply andb_true_iff in X as [_ X]. destruct from as [|c from]; [contradiction|]. cbn [is_nil orb] in *.
      destruct (name_idx ls (c :: from)) as [j|] eqn:J; [|discriminate]. apply andb_true_iff in X as [X1 X2]. apply Nat.ltb_lt in X1. rewrite pay in X2. exists j.
      split; [now apply name_idx_named|]. split; [reflexivity|]. split; [lia|exact X2].
  Qed.
  Lemma start_lt i : p < i < N -> start i < i.
  Proof.
    intro L. destruct (at_layer i (proj2 L)) as (l & E & _). destruct (placed i) eqn:K; [|unfold start; rewrite K; lia].
    destruct (layer_from l) as [|c t] eqn:F.
    - unfold start. rewrite K, E, F. cbn [is_nil]. lia.
    - destruct (from_named i l L E K) as (j & _ & -> & Lj & _); [rewrite F; discriminate|exact Lj].
  Qed.
  Lemma prefix_eq i cur : i <= p -> Permutation cur (seq 0 N) -> (i = p \/ before cur i p) ->
    force_order ls sup cur i = if placed i then Ok (cur, false) else Err.
  Proof.
    intros L W B. pose proof pN as PN. destruct (at_layer i ltac:(lia)) as (l & E & X). unfold force_order, placed. rewrite E. unfold layer_verify in X.
    pose proof (base_eq_ok cur i W L B) as Base. destruct (Nat.leb_spec i p) as [_|G]; [|lia].
    destruct (ly_spec l) as [| | |seek esc vbr from|a nm from until vbr|ifs fn ps|sem from until] eqn:S; try exact Base.
    - rewrite orb_true_r, pay. destruct (Nat.ltb_spec p i); [lia|]. rewrite andb_false_r. exact Base.
    - destruct until as [|c until]; [pose proof (no_prefix _ _ _ _ _ _ E S); lia|]. cbn [is_nil negb orb]. destruct (checksum_until _ _ _ _ X) as (j & J & _); [discriminate|].
      apply (until_eq cur i _ j W); [lia|exact J].
    - destruct sem; cbn [layer_kind_eqb negb]; try exact Base. destruct until as [|c until]; [exfalso; exact (no_custom _ _ _ E S)|]. cbn [is_nil negb].
      cbn [layer_kind_eqb] in X. destruct (checksum_until _ _ _ _ X) as (j & J & _); [discriminate|]. apply (until_eq cur i _ j W); [lia|exact J].
  Qed.
  Lemma suffix_eq i cur : p < i < N -> placed i = true -> Permutation cur (seq 0 N) -> force_order ls sup cur i = suffix_layer ls cur i (position (start i) cur).
  Proof.
    intros L K W. destruct (at_layer i (proj2 L)) as (l & E & X). assert (I : forall x, In x cur -> x < N) by (intro x; rewrite (Permutation_in' eq_refl W), in_seq; lia).
    assert (Fr : layer_from l <> [] -> find_idx (named ls (layer_from l)) cur = position (start i) cur).
    { intro F. destruct (from_named i l L E K F) as (j & J & -> & _). apply find_idx_ext. intros x H. rewrite (named_eq _ _ J x (I _ H)). reflexivity. }
    assert (Pl : layer_from l = [] -> find_idx (is_payload ls) cur = position (start i) cur).
    { intro F. unfold start. rewrite K, E, F. cbn [is_nil]. apply find_idx_ext. intros x H. apply is_pay. now apply I. }
    unfold force_order. unfold placed in K. rewrite E in *. unfold layer_verify in X. unfold layer_from in *.
    destruct (ly_spec l) as [| | |seek esc vbr from|a nm from until vbr|ifs fn ps|sem from until] eqn:S.
    - exfalso. assert (Q : payload_at f i) by (exists l; split; [exact E|unfold ly_kind; now rewrite S]). pose proof (payload_unique _ _ _ _ V P Q). lia.
    - apply andb_true_iff in X as [_ X]. pose proof (before_payload_spec _ _ _ _ V P X). lia.
    - apply andb_true_iff in X as [_ X]. pose proof (before_payload_spec _ _ _ _ V P X). lia.
    - destruct (Nat.leb_spec i p); [lia|]. rewrite orb_false_r in K. rewrite K, pay. destruct (Nat.ltb_spec p i); [|lia]. cbn [andb]. destruct from as [|c from]; cbn [is_nil]; [rewrite Pl|rewrite Fr]; try reflexivity. discriminate.
    - destruct until as [|c until]; cbn [is_nil negb orb] in *.
      + destruct from as [|c from]; [discriminate X|]. cbn [is_nil]. rewrite Fr; [reflexivity|discriminate].
      + exfalso. destruct (checksum_until _ _ _ _ X) as (j & J & Lj); [discriminate|]. apply (named_p _ _ J) in K. lia.
    - pose proof (before_payload_spec _ _ _ _ V P X). lia.
    - exfalso. destruct sem; try (apply Nat.leb_le in K; lia). cbn [layer_kind_eqb] in X. destruct until as [|c until]; [exact (no_custom _ _ _ E S)|].
      destruct (checksum_until _ _ _ _ X) as (j & J & Lj); [discriminate|]. apply (named_p _ _ J) in K. lia.
  Qed.
  Lemma suffix_err i cur : p < i < N -> placed i = false -> Permutation cur (seq 0 N) -> before cur p i -> force_order ls sup cur i = Err.
  Proof.
    intros L K W B. destruct (at_layer i (proj2 L)) as (l & E & X). pose proof (base_eq_bad cur i W L B) as Base.
    unfold force_order. unfold placed in K. rewrite E in *. unfold layer_verify in X.
    destruct (ly_spec l) as [| | |seek esc vbr from|a nm from until vbr|ifs fn ps|sem from until] eqn:S; try discriminate K.
    - apply orb_false_iff in K as [-> _]. exact Base.
    - apply orb_false_iff in K as [U K]. rewrite U. cbn [negb]. destruct (checksum_until _ _ _ _ X) as (j & J & _); [intros ->; discriminate|].
      rewrite (until_eq cur i _ j W (proj2 L) J), K. reflexivity.
    - destruct sem; cbn [layer_kind_eqb negb]; try exact Base. destruct until as [|c until]; [exfalso; exact (no_custom _ _ _ E S)|]. cbn [is_nil negb]. cbn [layer_kind_eqb] in X.
      destruct (checksum_until _ _ _ _ X) as (j & J & _); [discriminate|]. rewrite (until_eq cur i _ j W (proj2 L) J), K. reflexivity.
  Qed.
  Lemma placed_iff : no_place f p (sup = true) <-> exists i, i < N /\ placed i = false.
  Proof.
    assert (Nl : forall i l, layer_at f i l -> i < N) by (intros i l A; apply nth_error_Some; unfold layer_at in A; fold ls in A; congruence). split.
    - intros [i l until A C U H|i l sem from until A L S D|i l seek esc vbr from A L S D]; exists i; (split; [exact (Nl _ _ A)|]);
        destruct (at_layer i (Nl _ _ A)) as (l' & E & X); pose proof A as A'; unfold layer_at in A'; fold ls in A'; rewrite E in A'; injection A' as ->; unfold placed; rewrite E; unfold layer_verify in X.
      + assert (Q : named_at f until p -> False) by exact H. clear H. destruct C as [(a & nm & from & v & S)|(from & S)]; rewrite S in *.
        * destruct until as [|c until]; [contradiction|]. cbn [is_nil orb]. destruct (checksum_until _ _ _ _ X U) as (j & J & _). destruct (named ls (c :: until) p) eqn:Z; [|reflexivity].
          apply (named_p _ _ J) in Z. subst j. contradiction.
        * cbn [layer_kind_eqb] in X. destruct (checksum_until _ _ _ _ X U) as (j & J & _). destruct (named ls until p) eqn:Z; [|reflexivity]. apply (named_p _ _ J) in Z. subst j. contradiction.
      + rewrite S. destruct sem; try contradiction; apply Nat.leb_gt; exact L.
      + rewrite S. apply orb_false_iff. split; [destruct sup; [contradiction|reflexivity]|apply Nat.leb_gt; exact L].
    - intros (i & L & K). destruct (at_layer i L) as (l & E & X). unfold placed in K. rewrite E in K. unfold layer_verify in X.
      destruct (ly_spec l) as [| | |seek esc vbr from|a nm from until vbr|ifs fn ps|sem from until] eqn:S; try discriminate K.
      + apply orb_false_iff in K as [K1 K2]. apply Nat.leb_gt in K2. eapply SyncSuffix; [exact E|exact K2|exact S|congruence].
      + apply orb_false_iff in K as [U K]. assert (U' : until <> []) by (intros ->; discriminate). eapply Until; [exact E|left; eauto|exact U'|]. intro J. assert (Y := proj2 (named_p _ _ J) eq_refl). congruence.
      + assert (D : sem = LChecksum \/ sem <> LChecksum) by (destruct sem; auto; right; discriminate). destruct D as [->|D].
        * assert (U' : until <> []) by (intros ->; exact (no_custom _ _ _ E S)). eapply Until; [exact E|right; eauto|exact U'|]. intro J. assert (Y := proj2 (named_p _ _ J) eq_refl). congruence.
        * eapply CustomSuffix; [exact E| |exact S|exact D]. destruct sem; try contradiction; apply Nat.leb_gt; exact K.
  Qed.
  Lemma um_start k j : (forall a, a < k -> j <= start (S p + a)) -> j <= p -> j <= um p start k.
  Proof. induction k as [|k IH]; intros H L; cbn [um]; [exact L|]. pose proof (H k ltac:(lia)). pose proof (IH ltac:(intros; apply H; lia) L). lia. Qed.
  Lemma um_iff k x : x <= p -> um p start k <= x <-> p <= x \/ exists a, a < k /\ start (S p + a) <= x.
  Proof.
    intro Lx. induction k as [|k IH]; cbn [um]; split.
    - lia.
    - intros [H|(a & L & _)]; lia.
    - intro H. destruct (Nat.le_gt_cases (start (S p + k)) x) as [G|G]; [right; exists k; split; [lia|exact G]|].
      assert (H' : um p start k <= x) by lia. apply IH in H' as [H'|(a & L & A)]; [now left|right; exists a; split; [lia|exact A]].
    - intros [H|(a & L & A)].
      + assert (um p start k <= x) by (apply IH; now left). lia.
      + destruct (Nat.eq_dec a k) as [->|D]; [lia|]. assert (um p start k <= x) by (apply IH; right; exists a; split; [lia|exact A]). lia.
  Qed.
  Lemma complete_encloses o : complete p start (N - S p) o -> (forall i, i < N -> placed i = true) -> encloses f p o.
  Proof.
    intros C O i L. pose proof (c_nodup _ _ _ _ C) as Nc. pose proof pN as PN. fold ls in L. fold N in L.
    assert (W : forall k x, p < k < N -> inside_of o k x <-> x < k /\ (p < x \/ u p start k <= x)).
    { intros k x Lk. rewrite (inside_before o k x Nc). destruct (Nat.leb_spec x p) as [G|G].
      - rewrite (c_wrap _ _ _ _ C k x ltac:(lia) G). lia.
      - split.
        + intro B. split; [|now left]. assert (Ix : x < N) by (apply before_In_r in B; apply (c_In _ _ _ _ _ C) in B; lia).
          destruct (Nat.lt_total x k) as [H|[->|H]]; [exact H|exfalso; exact (before_irrefl _ _ Nc B)|]. exfalso. eapply before_asym; [exact Nc|exact B|].
          apply (c_nested p start (N - S p)); [exact C|lia|lia].
        + intros [H _]. apply (c_nested p start (N - S p)); [exact C|lia|lia]. }
    split.
    - intros j (l & A & F & J) Lj x. rewrite W by lia. destruct (from_named i l L A (O i (proj2 L)) F) as (j' & J' & Es & _ & So). pose proof (named_unique _ _ _ _ J J') as <-.
      assert (Eu : u p start i = j).
      { unfold u. replace (i - p) with (S (i - S p)) by lia. cbn [um]. replace (S p + (i - S p)) with i by lia. rewrite Es. apply Nat.min_l. apply um_start; [|exact Lj].
        intros a La. destruct (at_layer (S p + a) ltac:(lia)) as (m & Em & _). destruct (layer_from m) as [|c t] eqn:Fm.
        - unfold start. rewrite (O (S p + a)) by lia. rewrite Em, Fm. cbn [is_nil]. exact Lj.
        - assert (La1 : p < S p + a < N) by lia. destruct (from_named (S p + a) m La1 Em (O _ (proj2 La1))) as (jm & Jm & -> & _); [rewrite Fm; discriminate|].
          eapply suffix_order_spec; [exact So| |exact Em|rewrite Fm; discriminate|exact Jm]. lia. }
      rewrite Eu. lia.
    - intros D x. rewrite W by lia. assert (St : p <= start i).
      { destruct (at_layer i (proj2 L)) as (l & E & _). destruct (layer_from l) as [|c t] eqn:F.
        - unfold start. rewrite (O i (proj2 L)), E, F. cbn [is_nil]. lia.
        - destruct (from_named i l L E (O i (proj2 L))) as (j & J & Ej & _); [rewrite F; discriminate|]. rewrite Ej. apply Nat.nlt_ge. intro H. apply D. exists j. split; [|lia].
          exists l. split; [exact E|]. split; [rewrite F; discriminate|exact J]. }
      split.
      + intros [Lx [H|H]]; (split; [exact Lx|]); [left; lia|]. destruct (Nat.le_gt_cases p x) as [G|G]; [now left|]. right.
        unfold u in H. replace (i - p) with (S (i - S p)) in H by lia. cbn [um] in H. replace (S p + (i - S p)) with i in H by lia.
        assert (H' : um p start (i - S p) <= x) by lia. apply um_iff in H' as [H'|(a & La & A)]; [lia| |lia]. exists (S p + a). split; [lia|]. apply W; [lia|]. split; [lia|]. right.
        unfold u. replace (S p + a - p) with (S a) by lia. cbn [um]. lia.
      + intros [Lx [H|(k & Lk & H)]]; (split; [exact Lx|]).
        * destruct (Nat.eq_dec p x) as [<-|Dx]; [right|left; lia]. unfold u. apply um_iff; [lia|now left].
        * apply W in H as [Lxk [H|H]]; [now left|right|lia]. etransitivity; [|exact H]. unfold u. apply um_le. lia.
  Qed.
  Lemma order_frame : exists r, finishes f sup r /\ (r = Err <-> no_place f p (sup = true)) /\ r <> UB /\
    forall o, r = Ok o -> wire (fun i => p < i) o (seq 0 N) /\ encloses f p o.
  Proof.
    destruct (order_main ls sup p N start placed pN pay is_pay start_lt prefix_eq suffix_eq suffix_err) as (turns & res & R & H).
    exists res. split; [exists turns; exact R|]. rewrite placed_iff. destruct H as [(G & -> & C & O)|(-> & i & L & K)].
    - split; [|split; [discriminate|]].
      + split; [discriminate|]. intros (i & L & K). rewrite (O i L) in K. discriminate.
      + intros o E. injection E as <-. split; [|now apply complete_encloses]. pose proof (wire_filter p G) as Wr. rewrite (c_pre _ _ _ _ C), (c_suf _ _ _ _ C), rev_involutive in Wr.
        pose proof pN as PN. replace N with (S p + (N - S p)) by lia. rewrite seq_app. exact Wr.
    - split; [|split; [discriminate|discriminate]]. split; [|reflexivity]. intros _. exists i. auto.
  Qed.
End Discharge.
