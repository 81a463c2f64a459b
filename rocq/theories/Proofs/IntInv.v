From Verif.Model Require Import Base Common Xml Units Field FieldCommon IntField.
From Verif.Spec Require Import Texts Ints Versions IntSpec.
From Verif.Proofs Require Import BaseFacts CommonFacts IntFacts RangeFacts.
From Coq Require Import ZifyBool ZifyNat Permutation Sorting.Sorted.

(** ** versions *)
Lemma version_prop_spec (o : option str) d v :
  match o with None => Ok d | Some s => of_opt (parseStrToUnsigned s) end = Ok v <-> version_text o d v.
Proof.
  unfold version_text. destruct o as [s|].
  - rewrite of_opt_Ok. apply unsigned_spec.
  - split; [intros [= ->]|intros ->]; reflexivity.
Qed.
Lemma check_versions_spec sv s d ps pd : d <= never ->
  (parseCheckVersions sv s d ps pd = Ok tt <-> consistent_versions sv ps pd s d).
Proof.
  intros Hd. change never with not_deprecated in Hd.
  unfold parseCheckVersions, consistent_versions. change never with not_deprecated.
  destruct (Z.ltb_spec sv s); [split; [discriminate|lia]|].
  destruct (Z.ltb_spec s ps); [split; [discriminate|lia]|].
  destruct (Z.leb_spec pd s); [split; [discriminate|lia]|].
  destruct (Z.ltb_spec pd d); [split; [discriminate|lia]|].
  destruct (Z.leb_spec d s); [split; [discriminate|lia]|].
  destruct (Z.ltb_spec d not_deprecated), (Z.ltb_spec sv d); cbn [andb]; split; try discriminate; intros; try reflexivity; lia.
Qed.
Lemma version_text_le o d v : d <= never -> version_text o d v -> v <= never.
Proof.
  unfold version_text, never. destruct o; [|lia]. intros _ (z & _ & _ & ->).
  pose proof (Z.mod_pos_bound z (2 ^ 32) ltac:(lia)). lia.
Qed.
Lemma versions_spec sv p ps pd s d : pd <= never ->
  (parseGetAndCheckVersions sv p (ps, pd) = Ok (s, d) <->
   version_text (find_prop p (L "sinceVersion")) ps s /\ version_text (find_prop p (L "deprecated")) pd d /\
   consistent_versions sv ps pd s d).
Proof.
  intros Hp. unfold parseGetAndCheckVersions. split.
  - intros H. apply bind_Ok in H as (s' & Hs & H). apply bind_Ok in H as (d' & Hd & H).
    apply bind_Ok in H as ([] & Hc & H). injection H as -> ->.
    apply version_prop_spec in Hs, Hd. apply check_versions_spec in Hc; eauto using version_text_le.
  - intros (Hs & Hd & Hc). pose proof (version_text_le _ _ _ Hp Hd) as Hl.
    apply check_versions_spec in Hc; [|exact Hl]. apply version_prop_spec in Hs, Hd.
    rewrite Hs. cbn [bind]. rewrite Hd. cbn [bind]. rewrite Hc. reflexivity.
Qed.
(** one direction needs no bound on the parent *)
Lemma versions_ok sv p ps pd s d :
  parseGetAndCheckVersions sv p (ps, pd) = Ok (s, d) ->
   version_text (find_prop p (L "sinceVersion")) ps s /\ version_text (find_prop p (L "deprecated")) pd d /\
   ps <= s /\ s < d /\ d <= pd /\ s <= sv /\ (never <= d \/ d <= sv).
Proof.
  intros H. unfold parseGetAndCheckVersions in H.
  apply bind_Ok in H as (s' & Hs & H). apply bind_Ok in H as (d' & Hd & H).
  apply bind_Ok in H as ([] & Hc & H). injection H as -> ->.
  apply version_prop_spec in Hs, Hd. split; [auto|]. split; [auto|].
  unfold parseCheckVersions in Hc. change not_deprecated with never in Hc.
  repeat match type of Hc with (if ?b then _ else _) = _ => destruct b eqn:?; [discriminate|] end. lia.
Qed.

(** ** values *)
Lemma big_iff t : big_type t <-> is_big t = true.
Proof. unfold big_type; destruct t; simpl; intuition congruence. Qed.
Lemma ref_text_iff s : reference_text s <-> parseIsValidRefName s = true.
Proof. symmetry. apply parseIsValidRefName_spec. Qed.
Lemma assoc_In {A} k (l : list (str * A)) v : assoc k l = Some v -> In (k, v) l.
Proof.
  induction l as [|[k' v'] l IH]; simpl; [discriminate|].
  destruct (str_eqb k' k) eqn:E; [|auto]. intros [= ->]. apply str_eqb_eq in E. subst. auto.
Qed.
Lemma assoc_None {A} k (l : list (str * A)) : assoc k l = None <-> ~ In k (map fst l).
Proof.
  induction l as [|[k' v'] l IH]; simpl; [tauto|].
  destruct (str_eqb k' k) eqn:E.
  - apply str_eqb_eq in E. subst. split; [discriminate|]. intros N; exfalso; auto.
  - apply str_eqb_neq in E. rewrite IH. tauto.
Qed.
Lemma has_key_iff {A} k (l : list (str * A)) : has_key k l = true <-> In k (map fst l).
Proof.
  unfold has_key. destruct (assoc k l) eqn:E.
  - apply assoc_In in E. split; auto. intros _. apply (in_map fst) in E. exact E.
  - apply assoc_None in E. split; [discriminate|tauto].
Qed.
Lemma numbers_keys l : map fst (numbers l) = map fst l.
Proof. unfold numbers. rewrite map_map. reflexivity. Qed.
Lemma name_is_ref s : parseIsValidName s = true -> parseIsValidRefName s = true.
Proof.
  intros H. apply parseIsValidName_spec in H. apply parseIsValidRefName_spec. left.
  destruct H as [Hw (c & Hc & Hl)]. exists [s]. repeat split; auto; [discriminate|].
  destruct s as [|c' s']; [discriminate|]. injection Hc as ->. eauto.
Qed.
Lemma value_text_ok e t sp s v :
  Forall (fun x => parseIsValidName (fst x) = true) sp ->
  int_str_to_value e t sp s = Some v -> value_text t (e_num e) (numbers sp) s v.
Proof.
  intros Hn. unfold int_str_to_value.
  destruct (if parseIsValidName s then assoc s sp else None) as [x|] eqn:E.
  - intros [= <-]. destruct (parseIsValidName s) eqn:En; [|discriminate].
    apply vt_special; [apply parseIsValidName_spec; exact En|].
    apply assoc_In in E. unfold numbers. apply (in_map (fun x => (fst x, v_value (snd x)))) in E. exact E.
  - assert (N : ~ In s (map fst (numbers sp))).
    { rewrite numbers_keys. destruct (parseIsValidName s) eqn:En; [apply assoc_None; exact E|].
      intros I. apply in_map_iff in I as (y & <- & Iy). rewrite Forall_forall in Hn.
      rewrite (Hn y Iy) in En. discriminate. }
    destruct (parseIsValidRefName s) eqn:Er.
    + destruct (e_num e s) as [[w b]|] eqn:Ev; [|discriminate].
      destruct (negb b && (w <? 0) && is_unsigned t) eqn:G1; [discriminate|].
      destruct (b && negb (is_big t)) eqn:G2; [discriminate|]. intros [= <-].
      eapply vt_ref; eauto.
      * apply ref_text_iff; exact Er.
      * intros ->. apply big_iff. destruct (is_big t); [reflexivity|discriminate].
      * intros Hw. destruct b; [auto|]. right. apply signed_iff.
        destruct (is_unsigned t); [|reflexivity]. rewrite andb_true_r in G1. simpl in G1. lia.
    + assert (Nr : ~ reference_text s) by (rewrite ref_text_iff; congruence).
      destruct (is_big t) eqn:Eb.
      * unfold parseStrToUintMax. destruct (stoull s) as [z|] eqn:Ez; [|discriminate]. intros [= <-].
        apply stoull_spec in Ez as (w & D & Hw & ->).
        pose proof (to_s64_range (w mod 2 ^ 64)) as R. pose proof (to_u64_s64 (w mod 2 ^ 64)) as M.
        eapply vt_big_literal; eauto.
        -- apply big_iff; exact Eb.
        -- unfold int_min, int_max in R. change (2 ^ 63) with 9223372036854775808. lia.
        -- unfold to_u64 in M. change two64 with (2 ^ 64) in M. rewrite M. apply Z.mod_mod. discriminate.
      * intros H. apply stoll_spec in H as [D R]. apply vt_literal; auto. rewrite big_iff; congruence.
Qed.
(** and conversely, for a list of specials with distinct names *)
Lemma NoDup_assoc {A} k (v : A) l : NoDup (map fst l) -> In (k, v) l -> assoc k l = Some v.
Proof.
  induction l as [|[k' v'] l IH]; simpl; [tauto|]. intros N [E|I].
  - injection E as -> ->. rewrite str_eqb_refl. reflexivity.
  - inversion N as [|? ? N1 N2]; subst. destruct (str_eqb k' k) eqn:E; [|auto].
    apply str_eqb_eq in E. subst. exfalso. apply N1. apply (in_map fst) in I. exact I.
Qed.

(** ** the invariant *)
Definition sp_ok (t : int_type) (x : str * named_val) : Prop :=
  parseIsValidName (fst x) = true /\ is64 (v_value (snd x)) /\
  in_limits (is_big t) (min_type_value t) (max_type_value t) (v_value (snd x)) = true.
Definition sps_ok (t : int_type) (l : list (str * named_val)) : Prop :=
  NoDup (map fst l) /\ Forall (sp_ok t) l.
Record int_inv (s : int_state) : Prop := {
  inv_bits : bits_ok (i_type s) (i_length s) (i_bitLength s);
  inv_so : is64 (i_serOffset s);
  inv_limits : int_min_max (i_type s) (i_bitLength s) (i_serOffset s)
     = Ok (i_typeMin s, i_typeMax s, i_min s, i_max s);
  inv_sps : sps_ok (i_type s) (i_specials s);
  inv_default : is64 (i_default s) /\
     in_limits (is_big (i_type s)) (min_type_value (i_type s)) (max_type_value (i_type s)) (i_default s) = true;
  inv_ranges : Forall r64 (i_ranges s);
  inv_sorted : StronglySorted (fun a b => ~ wlt (is_big (i_type s)) b a) (i_ranges s) }.
Definition opt_inv (o : option int_state) : Prop := match o with None => True | Some s => int_inv s end.

Lemma sps_names t l : sps_ok t l -> Forall (fun x => parseIsValidName (fst x) = true) l.
Proof. intros [_ H]. eapply Forall_impl; [|exact H]. intros a (H1 & _). exact H1. Qed.
Lemma sps_64 t l : sps_ok t l -> Forall (fun x => is64 (v_value (snd x))) l.
Proof. intros [_ H]. eapply Forall_impl; [|exact H]. intros a (_ & H1 & _). exact H1. Qed.

Lemma int_update_type_spec p old t : int_update_type p old = Ok t ->
  match old with None => True | Some o => t = o end.
Proof.
  unfold int_update_type. intros H. apply bind_Ok in H as ([] & _ & H). destruct old as [o|]; [|exact I].
  destruct (find_prop p (L "type")); inv_all; [|simpl in *; congruence].
  destruct (int_type_eqb x o); [congruence|discriminate].
Qed.
Lemma stoull_nn s v : parseStrToUintMax s = Some v -> 0 <= v.
Proof. intros H. apply stoull_u64 in H. lia. Qed.
Lemma max_len_pos t : 0 < max_type_length t <= 10.
Proof. destruct t; simpl; lia. Qed.
Lemma int_update_length_spec p t old len : int_update_length p t old = Ok len ->
  (old = 0 \/ 0 < old <= max_type_length t) -> 0 < len <= max_type_length t /\ (old <> 0 -> len = old).
Proof.
  unfold int_update_length. intros H Ho. apply bind_Ok in H as ([] & _ & H).
  pose proof (max_len_pos t). destruct (is_nil (get_prop p (L "length"))).
  - injection H as <-. destruct (Z.eqb_spec old 0); lia.
  - apply bind_Ok in H as (v & Hv & H). apply of_opt_Ok in Hv. apply stoull_nn in Hv.
    destruct (Z.eqb_spec v 0); [discriminate|]. destruct (Z.eqb_spec old v); [inv_all; lia|].
    destruct (Z.eqb_spec old 0); cbn [negb] in H; [|discriminate].
    destruct (Z.ltb_spec (max_type_length t) v); [discriminate|]. inv_all. lia.
Qed.
Lemma int_update_bits_spec p b t len old bits : int_update_bit_length p b t len old = Ok bits ->
  0 < len <= max_type_length t -> (old = 0 \/ bits_ok t len old) -> bits_ok t len bits.
Proof.
  unfold int_update_bit_length. intros H Hl Ho. apply bind_Ok in H as ([] & _ & H).
  assert (bits_ok t len (len * 8)) by (unfold bits_ok; lia).
  destruct (is_nil _).
  - injection H as <-. destruct (Z.eqb_spec old 0); [auto|]. destruct Ho; [contradiction|auto].
  - destruct b; cbn [negb] in H; [|injection H as <-; auto].
    apply bind_Ok in H as (v & Hv & H). apply of_opt_Ok in Hv. apply unsigned_u32 in Hv.
    apply bind_Ok in H as ([] & Hg & H). apply guard_Ok in Hg. inv_all.
    unfold int_bit_length_ok in Hg. unfold bits_ok. destruct (is_var t); [discriminate|].
    split; [lia|]. split; [simpl in Hg; lia|discriminate].
Qed.
Lemma ser_offset_64 p old so : update_ser_offset p old = Ok so -> is64 old -> is64 so.
Proof.
  unfold update_ser_offset. intros H Ho. apply bind_Ok in H as ([] & _ & H).
  destruct (is_nil _); [inv_all; auto|]. apply of_opt_Ok in H. apply stoll_is64 in H. exact H.
Qed.
Lemma int_min_max_type t bits so a b c d : int_min_max t bits so = Ok (a, b, c, d) ->
  a = min_type_value t /\ b = max_type_value t.
Proof.
  unfold int_min_max. intros H. apply bind_Ok in H as (m & _ & H). apply bind_Ok in H as (m' & _ & H).
  destruct (so =? 0); [injection H; intros; subst; auto|].
  apply bind_Ok in H as ([] & _ & H). destruct (negb (is_unsigned t)); [|injection H; intros; subst; auto].
  apply bind_Ok in H as (x & _ & H). apply bind_Ok in H as (y & _ & H). injection H; intros; subst; auto.
Qed.
Lemma s64_is64 z r : s64 z = Ok r -> is64 r.
Proof. intros H. apply s64_Ok in H as [-> H]. exact H. Qed.
Lemma int_min_max_64 t len bits so a b c d : bits_ok t len bits -> int_min_max t bits so = Ok (a, b, c, d) -> is64 c /\ is64 d.
Proof.
  unfold int_min_max. intros Hb H. apply bind_Ok in H as (m & Hm & H). apply bind_Ok in H as (m' & Hm' & H).
  assert (K : is64 m /\ is64 m').
  { pose proof (calc_forms _ _ _ _ _ Hb Hm Hm') as C. cbv zeta in C.
    pose proof (wire_nonneg _ _ _ Hb). destruct C as [Hw C].
    destruct (is_unsigned t) eqn:Eu.
    - destruct C as (-> & C1 & C2). split; [num|].
      destruct (is_big t) eqn:Eb.
      + unfold calc_max in Hm'. rewrite Eb in Hm'. injection Hm' as <-. apply to_s64_range.
      + rewrite (C2 eq_refl). pose proof (small_wire _ _ _ Hb Eb Eu).
        pose proof (pow_le_w (wire_bits t len bits) 32 ltac:(lia)). change (2 ^ 32) with 4294967296 in *. num.
    - destruct C as (C0 & -> & ->). pose proof (pow_le_w (wire_bits t len bits - 1) 63 ltac:(lia)) as P.
      rewrite e63 in P. num. }
  destruct (so =? 0); [injection H; intros; subst; auto|].
  apply bind_Ok in H as ([] & _ & H). destruct (negb (is_unsigned t)).
  - apply bind_Ok in H as (x & Hx & H). apply bind_Ok in H as (y & Hy & H). injection H; intros; subst.
    unfold off_min_signed in Hx. unfold off_max_signed in Hy.
    destruct (so <? 0).
    + apply bind_Ok in Hy as (l & _ & Hy). split; [eapply s64_is64; eauto|].
      destruct (m' <? l); [eapply s64_is64; eauto|injection Hy as <-; apply K].
    + apply bind_Ok in Hx as (l & _ & Hx). split; [|eapply s64_is64; eauto].
      destruct (l <? m); [eapply s64_is64; eauto|injection Hx as <-; apply K].
  - injection H; intros; subst. split; apply to_s64_range.
Qed.

(** specials *)
Lemma find_of_count p k : parseValidateSinglePropInstance p k true = Ok tt -> exists v, find_prop p k = Some v.
Proof.
  unfold parseValidateSinglePropInstance. destruct (Nat.ltb 1 _); [discriminate|].
  destruct (Nat.eqb (count_prop p k) 0) eqn:E; [discriminate|]. intros _.
  induction p as [|[k' v] p IH]; simpl in *; [discriminate|].
  destruct (str_eqb k' k); eauto.
Qed.
Lemma int_special_ok e t nonU sd dp st n st' : env_num_ok e ->
  sps_ok t (fst st) -> int_special e t nonU (min_type_value t) (max_type_value t) sd dp st n = Ok st' ->
  exists x, fst st' = fst st ++ [x] /\ sps_ok t (fst st') /\
    (dp <= never -> special_element e t sd dp (fst st) n x) /\
    sd <= v_since (snd x) < v_depr (snd x) /\ v_depr (snd x) <= dp /\
    (nonU = false -> ~ In (v_value (snd x)) (snd st) /\ snd st' = v_value (snd x) :: snd st).
Proof.
  intros He Hs H. destruct st as [sps seen]. cbn [fst snd] in *. unfold int_special in H.
  apply bind_Ok in H as (p & Hp & H). apply bind_Ok in H as ([] & Hsp & H).
  apply bind_Ok in H as ([] & Hn & H). apply guard_Ok in Hn.
  apply bind_Ok in H as ([] & Hk & H). apply guard_Ok in Hk.
  apply bind_Ok in H as (v & Hv & H). apply of_opt_Ok in Hv.
  apply bind_Ok in H as ([] & Hu & H). apply guard_Ok in Hu.
  apply bind_Ok in H as ([] & Hl & H). apply guard_Ok in Hl.
  apply bind_Ok in H as ([s d] & Hver & H).
  unfold single_props in Hsp. apply bind_Ok in Hsp as (us & Hsp & _).
  assert (Hname : exists v, find_prop p (L "name") = Some v).
  { apply find_of_count. apply mapM_Forall2 in Hsp. inversion Hsp as [|? [] ? ? A]. exact A. }
  assert (Hval : exists v, find_prop p (L "val") = Some v).
  { apply find_of_count. apply mapM_Forall2 in Hsp. inversion Hsp as [|? [] ? ? A B]. inversion B as [|? [] ? ? C]. exact C. }
  destruct Hname as [name Ename], Hval as [val Eval].
  unfold get_prop in *. rewrite Ename, Eval in *.
  assert (Hnk : ~ In name (map fst sps)).
  { intros I. apply has_key_iff in I. rewrite I in Hk. discriminate. }
  injection H as <-. cbn [fst snd]. eexists (name, mkVal v s d _ _).
  split; [reflexivity|]. split; [|split].
  - destruct Hs as [N F]. split.
    + rewrite map_app. cbn [map fst]. apply NoDup_snoc; auto.
    + apply Forall_app. split; [exact F|]. constructor; [|constructor].
      unfold sp_ok; cbn [fst snd v_value]. split; [exact Hn|]. split; [|exact Hl].
      apply (int_str_to_value_64 e t sps val v He); [|exact Hv]. apply (sps_64 t). split; assumption.
  - intros Hd. exists p, val. cbn [fst snd v_value v_since v_depr].
    apply versions_spec in Hver as (V1 & V2 & V3); [|exact Hd].
    split; [exact Hp|]. split; [exact Ename|]. split; [apply parseIsValidName_spec; exact Hn|].
    split; [exact Hnk|]. split; [exact Eval|]. split; [eapply value_text_ok; eauto; eapply sps_names; eauto|]. auto.
  - cbn [fst snd v_value v_since v_depr]. apply versions_ok in Hver as (_ & _ & V). split; [lia|]. split; [lia|].
    intros ->. cbn [orb] in Hu. split; [|reflexivity]. intros I.
    assert (X : existsb (Z.eqb v) seen = true).
    { apply existsb_exists. exists v. split; [exact I|apply Z.eqb_refl]. }
    rewrite X in Hu. discriminate.
Qed.
Lemma specials_fold e t nonU sd dp ns : env_num_ok e -> forall st st',
  sps_ok t (fst st) -> foldM (int_special e t nonU (min_type_value t) (max_type_value t) sd dp) ns st = Ok st' ->
  exists new, fst st' = fst st ++ new /\ length new = length ns /\ sps_ok t (fst st') /\
    (dp <= never -> special_elements e t sd dp (fst st) ns (fst st')) /\
    Forall (fun x => sd <= v_since (snd x) < v_depr (snd x) /\ v_depr (snd x) <= dp) new /\
    (nonU = false -> NoDup (snd st) -> NoDup (snd st') /\ Permutation (snd st') (map (fun x => v_value (snd x)) new ++ snd st)).
Proof.
  intros He. induction ns as [|n ns IH]; intros st st' Hs H; simpl in H.
  - injection H as <-. exists []. rewrite app_nil_r. repeat split; auto; try (apply Hs). constructor.
  - apply bind_Ok in H as (st1 & H1 & H).
    destruct (int_special_ok _ _ _ _ _ _ _ _ He Hs H1) as (x & E1 & S1 & El & Vx & Vx' & U1).
    destruct (IH _ _ S1 H) as (new & E & Len & S2 & Els & F & U).
    exists (x :: new). split; [rewrite E, E1, <- app_assoc; reflexivity|].
    split; [simpl; congruence|]. split; [exact S2|]. split; [|split].
    + intros Hd. econstructor; [apply El, Hd|]. rewrite <- E1. apply Els, Hd.
    + constructor; auto.
    + intros N ND. destruct (U1 N) as [NI Es].
      assert (ND1 : NoDup (snd st1)) by (rewrite Es; constructor; auto).
      destruct (U N ND1) as [ND2 P]. split; [exact ND2|]. rewrite P, Es. simpl. symmetry. apply Permutation_middle.
Qed.

(** default value *)
Lemma default_internal_ok e t sp s v : env_num_ok e -> sps_ok t sp ->
  int_default_internal e t sp (min_type_value t) (max_type_value t) s = Ok v ->
  is64 v /\ in_limits (is_big t) (min_type_value t) (max_type_value t) v = true /\
  value_text t (e_num e) (numbers sp) s v.
Proof.
  intros He Hs H. unfold int_default_internal in H. apply bind_Ok in H as (w & Hw & H). apply of_opt_Ok in Hw.
  apply bind_Ok in H as ([] & Hg & H). apply guard_Ok in Hg. injection H as ->.
  split; [apply (int_str_to_value_64 e t sp s v He (sps_64 _ _ Hs) Hw)|]. split; [exact Hg|].
  apply (value_text_ok e t sp s v (sps_names _ _ Hs) Hw).
Qed.

(** ranges *)
Lemma children_named n k ch : In ch (parseGetChildrenNamed n k) -> In ch (n_children n) /\ is_elem ch = true /\ n_name ch = k.
Proof.
  unfold parseGetChildrenNamed, parseGetChildrenOf. intros H. apply filter_In in H as [H1 H2].
  apply andb_true_iff in H2 as [H2 H3]. simpl in H3. rewrite orb_false_r in H3.
  apply str_eqb_eq in H3. repeat split; auto.
Qed.
Lemma children_named_in n k ch : In ch (n_children n) -> is_elem ch = true -> n_name ch = k -> In ch (parseGetChildrenNamed n k).
Proof.
  intros H1 H2 H3. apply filter_In. split; [exact H1|]. rewrite H2. simpl. subst. rewrite str_eqb_refl. reflexivity.
Qed.
Lemma range_prop_stated e t sp mn mx rp s lo hi : Forall (fun x => parseIsValidName (fst x) = true) sp ->
  int_range_prop e t sp mn mx rp s = Ok (lo, hi) -> stated e t sp mn mx rp s lo hi.
Proof.
  intros Hn. destruct rp; simpl; intros H.
  - unfold int_range_of in H. apply bind_Ok in H as ([a b] & Hr & H). apply of_opt_Ok in Hr.
    apply bind_Ok in H as (x & Hx & H). apply of_opt_Ok in Hx.
    apply bind_Ok in H as (y & Hy & H). apply of_opt_Ok in Hy.
    destruct (Z.leb_spec (as_cmp (is_big t) x) (as_cmp (is_big t) y)) as [Hle|]; [|discriminate]. injection H as <- <-.
    apply parseRange_spec in Hr. econstructor; eauto using value_text_ok.
    exists (as_cmp (is_big t) x), (as_cmp (is_big t) y). rewrite !stands_iff. auto.
  - apply bind_Ok in H as (x & Hx & H). apply of_opt_Ok in Hx. injection H as <- <-. constructor; eauto using value_text_ok.
  - apply bind_Ok in H as (x & Hx & H). apply of_opt_Ok in Hx. injection H as <- <-. constructor; eauto using value_text_ok.
  - apply bind_Ok in H as (x & Hx & H). apply of_opt_Ok in Hx. injection H as <- <-. constructor; eauto using value_text_ok.
Qed.
Lemma range_prop_64 e t sp mn mx rp s lo hi : env_num_ok e -> Forall (fun x => is64 (v_value (snd x))) sp ->
  is64 mn -> is64 mx -> int_range_prop e t sp mn mx rp s = Ok (lo, hi) -> is64 lo /\ is64 hi.
Proof.
  intros He Hs Hmn Hmx H. assert (K := int_str_to_value_64 e t sp).
  destruct rp; simpl in H.
  - unfold int_range_of in H. apply bind_Ok in H as ([a b] & Hr & H).
    apply bind_Ok in H as (x & Hx & H). apply of_opt_Ok in Hx.
    apply bind_Ok in H as (y & Hy & H). apply of_opt_Ok in Hy.
    destruct (_ <=? _); [|discriminate]. injection H as <- <-. eauto.
  - apply bind_Ok in H as (x & Hx & H). apply of_opt_Ok in Hx. injection H as <- <-. eauto.
  - apply bind_Ok in H as (x & Hx & H). apply of_opt_Ok in Hx. injection H as <- <-. eauto.
  - apply bind_Ok in H as (x & Hx & H). apply of_opt_Ok in Hx. injection H as <- <-. eauto.
Qed.

Lemma value_text_conv e t sp s v :
  NoDup (map fst sp) -> value_text t (e_num e) (numbers sp) s v -> int_str_to_value e t sp s = Some v.
Proof.
  intros N H. unfold int_str_to_value. destruct H as [v Hi Hin|v huge Hn Hr He Hb Hs|v Hr Hb D R|z v Hr Hb D R R2 M].
  - apply parseIsValidName_spec in Hi. rewrite Hi.
    unfold numbers in Hin. apply in_map_iff in Hin as ([k x] & E & Hin). simpl in E. injection E as -> <-.
    rewrite (NoDup_assoc _ _ _ N Hin). reflexivity.
  - rewrite numbers_keys in Hn. apply assoc_None in Hn. rewrite Hn.
    replace (if parseIsValidName s then None else None) with (@None named_val) by (destruct (parseIsValidName s); reflexivity).
    apply ref_text_iff in Hr. rewrite Hr, He.
    rewrite big_iff in Hb. rewrite signed_iff in Hs.
    destruct huge.
    + simpl. rewrite (Hb eq_refl). reflexivity.
    + simpl. destruct (Z.ltb_spec v 0) as [Hv|Hv]; simpl; [|reflexivity].
      destruct (Hs Hv) as [|E]; [discriminate|]. rewrite E. reflexivity.
  - rewrite ref_text_iff in Hr. apply not_true_is_false in Hr.
    destruct (parseIsValidName s) eqn:En; [apply name_is_ref in En; congruence|].
    rewrite Hr. rewrite big_iff in Hb. apply not_true_is_false in Hb. rewrite Hb.
    apply stoll_spec. auto.
  - rewrite ref_text_iff in Hr. apply not_true_is_false in Hr.
    destruct (parseIsValidName s) eqn:En; [apply name_is_ref in En; congruence|].
    rewrite Hr. apply big_iff in Hb. rewrite Hb.
    assert (E : parseStrToUintMax s = Some (z mod 2 ^ 64)) by (apply stoull_spec; eauto).
    rewrite E. cbn [option_map]. f_equal. rewrite <- M. change (2 ^ 64) with two64.
    change (v mod two64) with (to_u64 v). rewrite to_s64_u64. apply to_s64_id.
    change (2 ^ 63) with 9223372036854775808 in R2. num.
Qed.
Lemma stated_conv e t sp mn mx rp s lo hi : NoDup (map fst sp) ->
  stated e t sp mn mx rp s lo hi -> int_range_prop e t sp mn mx rp s = Ok (lo, hi).
Proof.
  intros N H. destruct H as [s a b lo hi Hr Ha Hb (l & h & Hl & Hh & Hle)|s v H|s v H|s v H]; simpl.
  - unfold int_range_of. apply parseRange_spec in Hr. rewrite Hr. simpl.
    rewrite (value_text_conv _ _ _ _ _ N Ha), (value_text_conv _ _ _ _ _ N Hb). simpl.
    rewrite stands_iff in Hl, Hh. subst.
    destruct (Z.leb_spec (as_cmp (is_big t) lo) (as_cmp (is_big t) hi)); [reflexivity|lia].
  - rewrite (value_text_conv _ _ _ _ _ N H). reflexivity.
  - rewrite (value_text_conv _ _ _ _ _ N H). reflexivity.
  - rewrite (value_text_conv _ _ _ _ _ N H). reflexivity.
Qed.

(** ranges of one property *)
Definition attr_range e t sp mn mx sd dp n rp r : Prop := exists txt lo hi,
  find_prop (parseNodeProps n) (range_prop_name rp) = Some txt /\ stated e t sp mn mx rp txt lo hi /\
  r = mkRange lo hi sd dp.
Definition child_range e t sp mn mx sd dp n rp r : Prop := exists ch txt lo hi sv dv q,
  In ch (n_children n) /\ is_elem ch = true /\ n_name ch = range_prop_name rp /\
  parseNodeValue ch false = Ok txt /\ stated e t sp mn mx rp txt lo hi /\
  parseChildrenAsProps ch [L "sinceVersion"; L "deprecated"] true (parseNodeProps ch) = Ok q /\
  version_text (find_prop q (L "sinceVersion")) sd sv /\ version_text (find_prop q (L "deprecated")) dp dv /\
  consistent_versions (e_version e) sd dp sv dv /\ r = mkRange lo hi sv dv.
Lemma mapM_In_fwd {A B} (f : A -> res B) l l' a : mapM f l = Ok l' -> In a l -> exists b, In b l' /\ f a = Ok b.
Proof.
  intros H. apply mapM_Forall2 in H. induction H; simpl; intros HI; [tauto|].
  destruct HI as [<-|HI]; [eauto|]. destruct (IHForall2 HI) as (b & ? & ?). eauto.
Qed.
Lemma ranges_of_prop_spec e t sp mn mx sd dp n rp l : dp <= never -> sps_ok t sp ->
  int_ranges_of_prop e t sp mn mx sd dp n rp = Ok l ->
  forall r, In r l <-> attr_range e t sp mn mx sd dp n rp r \/ child_range e t sp mn mx sd dp n rp r.
Proof.
  intros Hd Hs H r. unfold int_ranges_of_prop in H. apply bind_Ok in H as (a & Ha & H).
  apply bind_Ok in H as (cs & Hc & H). injection H as <-. rewrite in_app_iff.
  assert (N := proj1 Hs). assert (Nm := sps_names _ _ Hs).
  assert (HA : In r a <-> attr_range e t sp mn mx sd dp n rp r).
  { unfold attr_range. destruct (find_prop (parseNodeProps n) (range_prop_name rp)) as [x|].
    - apply bind_Ok in Ha as ([lo hi] & Hr & Ha). injection Ha as <-. simpl. split.
      + intros [<-|[]]. exists x, lo, hi. repeat split; auto. apply range_prop_stated; auto.
      + intros (y & lo' & hi' & E & St & ->). injection E as <-.
        apply stated_conv in St; [|exact N]. rewrite Hr in St. injection St as <- <-. auto.
    - injection Ha as <-. simpl. split; [tauto|]. intros (y & lo' & hi' & E & _). discriminate. }
  assert (HC : In r cs <-> child_range e t sp mn mx sd dp n rp r).
  { unfold child_range. split.
    - intros I. destruct (mapM_In _ _ _ _ Hc I) as (ch & Hch & E).
      apply children_named in Hch as (C1 & C2 & C3).
      apply bind_Ok in E as (x & Ex & E). apply bind_Ok in E as ([lo hi] & Er & E).
      apply bind_Ok in E as ([sv dv] & Ev & E). injection E as <-.
      unfold parseGetAndCheckVersionsNode in Ev. apply bind_Ok in Ev as (q & Hq & Ev).
      apply versions_spec in Ev as (V1 & V2 & V3); [|exact Hd].
      exists ch, x, lo, hi, sv, dv, q. repeat (split; [assumption|]).
      split; [apply range_prop_stated; auto|]. auto.
    - intros (ch & x & lo & hi & sv & dv & q & C1 & C2 & C3 & Ex & St & Hq & V1 & V2 & V3 & ->).
      destruct (mapM_In_fwd _ _ _ ch Hc) as (b & Hb & E); [apply children_named_in; auto|].
      apply stated_conv in St; [|exact N].
      rewrite Ex in E. simpl in E. rewrite St in E. simpl in E.
      unfold parseGetAndCheckVersionsNode in E. rewrite Hq in E. cbn [bind] in E.
      assert (V : parseGetAndCheckVersions (e_version e) q (sd, dp) = Ok (sv, dv)) by (apply versions_spec; auto).
      rewrite V in E. simpl in E. injection E as <-. exact Hb. }
  tauto.
Qed.
Lemma new_ranges_spec e t sp mn mx sd dp n l : dp <= never -> sps_ok t sp ->
  int_new_ranges e t sp mn mx sd dp n = Ok l ->
  forall r, In r l <-> exists rp, attr_range e t sp mn mx sd dp n rp r \/ child_range e t sp mn mx sd dp n rp r.
Proof.
  intros Hd Hs H r. unfold int_new_ranges in H.
  apply bind_Ok in H as (a & Ha & H). apply bind_Ok in H as (b & Hb & H).
  apply bind_Ok in H as (c & Hc & H). apply bind_Ok in H as (d & Hdd & H). injection H as <-.
  rewrite !in_app_iff.
  rewrite (ranges_of_prop_spec _ _ _ _ _ _ _ _ _ _ Hd Hs Ha r), (ranges_of_prop_spec _ _ _ _ _ _ _ _ _ _ Hd Hs Hb r),
    (ranges_of_prop_spec _ _ _ _ _ _ _ _ _ _ Hd Hs Hc r), (ranges_of_prop_spec _ _ _ _ _ _ _ _ _ _ Hd Hs Hdd r).
  split.
  - intros [X|[X|[X|X]]]; eauto.
  - intros (rp & X). destruct rp; tauto.
Qed.
Lemma ranges_of_prop_64 e t sp mn mx sd dp n rp l : env_num_ok e -> Forall (fun x => is64 (v_value (snd x))) sp ->
  is64 mn -> is64 mx -> int_ranges_of_prop e t sp mn mx sd dp n rp = Ok l -> Forall r64 l.
Proof.
  intros He Hs Hmn Hmx H. unfold int_ranges_of_prop in H. apply bind_Ok in H as (a & Ha & H).
  apply bind_Ok in H as (cs & Hc & H). injection H as <-. apply Forall_app. split.
  - destruct (find_prop _ _); [|injection Ha as <-; constructor].
    apply bind_Ok in Ha as ([lo hi] & Hr & Ha). injection Ha as <-. constructor; [|constructor].
    eapply range_prop_64; [exact He|exact Hs|exact Hmn|exact Hmx|exact Hr].
  - apply Forall_forall. intros r Hr. destruct (mapM_In _ _ _ _ Hc Hr) as (ch & _ & E).
    apply bind_Ok in E as (x & Ex & E). apply bind_Ok in E as ([lo hi] & Er & E).
    apply bind_Ok in E as ([sv dv] & Ev & E). injection E as <-.
    eapply range_prop_64; [exact He|exact Hs|exact Hmn|exact Hmx|exact Er].
Qed.
Lemma new_ranges_64 e t sp mn mx sd dp n l : env_num_ok e -> Forall (fun x => is64 (v_value (snd x))) sp ->
  is64 mn -> is64 mx -> int_new_ranges e t sp mn mx sd dp n = Ok l -> Forall r64 l.
Proof.
  intros He Hs Hmn Hmx H. unfold int_new_ranges in H.
  apply bind_Ok in H as (a & Ha & H). apply bind_Ok in H as (b & Hb & H).
  apply bind_Ok in H as (c & Hc & H). apply bind_Ok in H as (d & Hdd & H). injection H as <-.
  rewrite !Forall_app. repeat split; (eapply ranges_of_prop_64; [exact He|exact Hs|exact Hmn|exact Hmx|eassumption]).
Qed.

(** ** everything int_parse establishes *)
Definition old_get {A} (old : option int_state) (f : int_state -> A) (d : A) : A :=
  match old with Some o => f o | None => d end.
Definition default_text (e : env) (p : props) (txt : option str) : Prop :=
  txt = match find_prop p (L "defaultValidValue") with
        | Some v => if prop_supported e (L "defaultValidValue") then Some v
                    else match get_prop p (L "defaultValue") with [] => None | d => Some d end
        | None => match get_prop p (L "defaultValue") with [] => None | d => Some d end
        end.
Lemma zero_in_type t : in_limits (is_big t) (min_type_value t) (max_type_value t) 0 = true.
Proof. destruct t; vm_compute; reflexivity. Qed.

Lemma int_parse_facts e c p n old s : env_num_ok e -> opt_inv old -> int_parse e c p n old = Ok s ->
  int_inv s /\
  (forall o, old = Some o -> i_type s = i_type o /\ i_length s = i_length o) /\
  (exists new, i_specials s = old_get old i_specials [] ++ new /\
     length new = length (parseGetChildrenNamed n (L "special")) /\
     (c_deprecated c <= never ->
        special_elements e (i_type s) (c_since c) (c_deprecated c) (old_get old i_specials [])
           (parseGetChildrenNamed n (L "special")) (i_specials s)) /\
     Forall (fun x => c_since c <= v_since (snd x) < v_depr (snd x) /\ v_depr (snd x) <= c_deprecated c) new /\
     (i_nonUniqueSpecials s = false -> NoDup (map (fun x => v_value (snd x)) new))) /\
  (forall txt, default_text e p txt ->
     match txt with
     | Some t => value_text (i_type s) (e_num e) (numbers (i_specials s)) t (i_default s)
     | None => i_default s = old_get old i_default 0
     end) /\
  (exists dv new, normalise_ranges (is_big (i_type s)) (old_get old i_ranges [] ++ dv ++ new) = Ok (i_ranges s) /\
     Forall r64 (old_get old i_ranges [] ++ dv ++ new) /\
     int_new_ranges e (i_type s) (i_specials s) (i_min s) (i_max s) (c_since c) (c_deprecated c) n = Ok new /\
     (forall r, In r dv <-> exists txt v, find_prop p (L "defaultValidValue") = Some txt /\
        prop_supported e (L "defaultValidValue") = true /\
        value_text (i_type s) (e_num e) (numbers (i_specials s)) txt v /\
        r = mkRange v v (c_since c) (c_deprecated c))).
Proof.
  intros He Ho H. unfold int_parse in H.
  apply bind_Ok in H as (t & Ht & H). apply bind_Ok in H as (en & Hen & H).
  apply bind_Ok in H as (len & Hlen & H). apply bind_Ok in H as (bits & Hbits & H).
  apply bind_Ok in H as (sc & _ & H). apply bind_Ok in H as (so & Hso & H).
  apply bind_Ok in H as ([[[tmin tmax] mn] mx] & Hmm & H).
  apply bind_Ok in H as (nonU & _ & H). apply bind_Ok in H as ([sps seen] & Hsp & H).
  apply bind_Ok in H as (d0 & Hd0 & H). apply bind_Ok in H as ([dflt rg0] & Hdv & H).
  apply bind_Ok in H as (vcv & _ & H). apply bind_Ok in H as (new & Hnew & H).
  apply bind_Ok in H as (rg & Hrg & H). apply bind_Ok in H as (un & _ & H).
  apply bind_Ok in H as (dec & _ & H). apply bind_Ok in H as (doff & _ & H).
  apply bind_Ok in H as (sx & _ & H). apply bind_Ok in H as (al & _ & H). injection H as <-.
  (* type, length, bits *)
  assert (Et : match old with None => True | Some o => t = i_type o end).
  { apply int_update_type_spec in Ht. destruct old; simpl in *; auto. }
  assert (Hl : 0 < len <= max_type_length t /\ (forall o, old = Some o -> len = i_length o)).
  { destruct old as [o|]; simpl in *.
    - subst t. destruct (inv_bits _ Ho) as (B1 & _).
      apply int_update_length_spec in Hlen; [|auto]. split; [tauto|]. intros o' [= <-]. apply Hlen. lia.
    - apply int_update_length_spec in Hlen; [|auto]. split; [tauto|discriminate]. }
  destruct Hl as [Hl Hl'].
  assert (Hb : bits_ok t len bits).
  { eapply int_update_bits_spec; eauto. destruct old as [o|]; [right|auto].
    simpl in Et. subst t. rewrite (Hl' o eq_refl). apply (inv_bits _ Ho). }
  assert (Hs : is64 so).
  { eapply ser_offset_64; eauto. destruct old; simpl; [apply (inv_so _ Ho)|num]. }
  destruct (int_min_max_type _ _ _ _ _ _ _ Hmm) as [-> ->].
  destruct (int_min_max_64 _ _ _ _ _ _ _ _ Hb Hmm) as [Hmn Hmx].
  (* specials *)
  assert (Hold : sps_ok t (old_get old i_specials [])).
  { destruct old as [o|]; simpl in *; [subst; apply (inv_sps _ Ho)|split; constructor]. }
  destruct (specials_fold e t nonU _ _ _ He (old_get old i_specials [], []) _ Hold Hsp)
    as (nsp & E1 & E2 & E3 & E4 & E5 & E6). cbn [fst snd] in *. subst sps.
  (* default *)
  assert (Hd : is64 d0 /\ in_limits (is_big t) (min_type_value t) (max_type_value t) d0 = true /\
     (match get_prop p (L "defaultValue") with
      | [] => d0 = old_get old i_default 0
      | tx => value_text t (e_num e) (numbers (old_get old i_specials [] ++ nsp)) tx d0 end)).
  { unfold int_update_default in Hd0. apply bind_Ok in Hd0 as ([] & _ & Hd0).
    destruct (get_prop p (L "defaultValue")) as [|ch r]; simpl in Hd0.
    - injection Hd0 as <-. destruct old as [o|]; simpl in *.
      + subst t. destruct (inv_default _ Ho). auto.
      + split; [num|]. split; [apply zero_in_type|reflexivity].
    - apply default_internal_ok in Hd0 as (A & B & C); auto. }
  destruct Hd as (Hd1 & Hd2 & Hd3).
  unfold int_update_default_valid in Hdv. apply bind_Ok in Hdv as ([] & _ & Hdv).
  assert (HD : exists dv, rg0 = old_get old i_ranges [] ++ dv /\
     is64 dflt /\ in_limits (is_big t) (min_type_value t) (max_type_value t) dflt = true /\ Forall r64 dv /\
     (forall r, In r dv <-> exists txt v, find_prop p (L "defaultValidValue") = Some txt /\
        prop_supported e (L "defaultValidValue") = true /\
        value_text t (e_num e) (numbers (old_get old i_specials [] ++ nsp)) txt v /\
        r = mkRange v v (c_since c) (c_deprecated c)) /\
     (forall txt, default_text e p txt ->
       match txt with
       | Some tx => value_text t (e_num e) (numbers (old_get old i_specials [] ++ nsp)) tx dflt
       | None => dflt = old_get old i_default 0
       end)).
  { unfold default_text.
    assert (Hnone : forall tx, tx = match get_prop p (L "defaultValue") with [] => None | d => Some d end ->
       match tx with
       | Some tx => value_text t (e_num e) (numbers (old_get old i_specials [] ++ nsp)) tx d0
       | None => d0 = old_get old i_default 0
       end).
    { intros tx ->. destruct (get_prop p (L "defaultValue")); exact Hd3. }
    destruct (find_prop p (L "defaultValidValue")) as [tv|] eqn:Efp.
    - destruct (prop_supported e (L "defaultValidValue")) eqn:Eps; cbn [negb] in Hdv.
      + apply bind_Ok in Hdv as (dd & Hdd & Hdv). injection Hdv as <- <-.
        apply default_internal_ok in Hdd as (A & B & C); auto.
        exists [mkRange dd dd (c_since c) (c_deprecated c)].
        split; [reflexivity|]. split; [exact A|]. split; [exact B|].
        split; [repeat constructor; simpl; apply A|]. split.
        * intros r. simpl. split.
          -- intros [<-|[]]. exists tv, dd. auto.
          -- intros (tx & v & [= <-] & _ & Hv & ->). left.
             pose proof (value_text_conv _ _ _ _ _ (proj1 E3) C) as X1.
             pose proof (value_text_conv _ _ _ _ _ (proj1 E3) Hv) as X2. congruence.
        * intros tx ->. exact C.
      + injection Hdv as <- <-. exists []. rewrite app_nil_r.
        split; [reflexivity|]. split; [exact Hd1|]. split; [exact Hd2|]. split; [constructor|]. split.
        * intros r. simpl. split; [tauto|]. intros (tx & v & _ & X & _). discriminate.
        * exact Hnone.
    - injection Hdv as <- <-. exists []. rewrite app_nil_r.
      split; [reflexivity|]. split; [exact Hd1|]. split; [exact Hd2|]. split; [constructor|]. split.
      + intros r. simpl. split; [tauto|]. intros (tx & v & X & _). discriminate.
      + exact Hnone. }
  destruct HD as (dv & -> & D1 & D2 & D3 & D4 & D5).
  assert (Hnew64 : Forall r64 new).
  { eapply new_ranges_64; [exact He|eapply sps_64; exact E3|exact Hmn|exact Hmx|exact Hnew]. }
  assert (Hall : Forall r64 (old_get old i_ranges [] ++ dv ++ new)).
  { rewrite !Forall_app. repeat split; auto. destruct old; simpl; [apply (inv_ranges _ Ho)|constructor]. }
  rewrite <- app_assoc in Hrg.
  split; [|split; [|split; [|split]]].
  - constructor; cbn [i_type i_length i_bitLength i_serOffset i_typeMin i_typeMax i_min i_max i_specials i_default i_ranges]; auto.
    + apply (normalise_64 _ _ _ is64 Hrg). exact Hall.
    + apply (normalise_sorted _ _ _ Hrg). exact Hall.
  - intros o ->. cbn [i_type i_length]. split; [exact Et|apply Hl'; reflexivity].
  - cbn [i_type i_specials i_nonUniqueSpecials]. exists nsp. repeat (split; [assumption||reflexivity|]).
    intros N. destruct (E6 N (NoDup_nil _)) as [ND P]. rewrite app_nil_r in P.
    eapply Permutation_NoDup; eauto.
  - cbn [i_type i_specials i_default]. exact D5.
  - cbn [i_type i_specials i_min i_max i_ranges]. exists dv, new. auto.
Qed.

Lemma int_reachable_inv s : int_reachable s -> int_inv s.
Proof.
  induction 1 as [e c p n s He H|e c p n o s He Hr IH H].
  - eapply int_parse_facts with (old := None); eauto. exact I.
  - eapply int_parse_facts with (old := Some o); eauto.
Qed.
Lemma start_inv old : start_ok old -> opt_inv old.
Proof. destruct old; simpl; [apply int_reachable_inv|auto]. Qed.
