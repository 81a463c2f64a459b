From Verif.Model Require Import Base Common Xml Units Field FieldCommon IntField EnumField SetField.
From Verif.Spec Require Import Texts Ints Versions IntSpec EnumSpec.
From Verif.Proofs Require Import BaseFacts CommonFacts IntFacts RangeFacts IntInv.
From Coq Require Import ZifyBool ZifyNat Permutation.

(** ** <enum> *)
Record enum_inv (s : enum_state) : Prop := {
  einv_bits : bits_ok (en_type s) (en_length s) (en_bitLength s);
  einv_tmin : en_typeMin s = min_type_value (en_type s);
  einv_tmax : en_typeMax s = max_type_value (en_type s);
  einv_min : calc_min (en_type s) (en_bitLength s) = Ok (en_min s);
  einv_max : calc_max (en_type s) (en_bitLength s) = Ok (en_max s);
  einv_vals : sps_ok (en_type s) (en_values s);
  einv_nonempty : en_values s <> [];
  einv_default : is64 (en_default s) /\
     in_limits (is_big (en_type s)) (min_type_value (en_type s)) (max_type_value (en_type s)) (en_default s) = true }.
Definition eopt_inv (o : option enum_state) : Prop := match o with None => True | Some s => enum_inv s end.
Definition eold {A} (old : option enum_state) (f : enum_state -> A) (d : A) : A :=
  match old with Some o => f o | None => d end.

Lemma enum_value_ok e t nonU sd dp vs n vs' : env_num_ok e ->
  sps_ok t vs -> enum_value e t nonU (min_type_value t) (max_type_value t) sd dp vs n = Ok vs' ->
  exists x, vs' = vs ++ [x] /\ sps_ok t vs' /\
    (dp <= never -> special_element e t sd dp vs n x) /\
    (sd <= v_since (snd x) < v_depr (snd x) /\ v_depr (snd x) <= dp) /\
    (nonU = false -> ~ In (v_value (snd x)) (map (fun y => v_value (snd y)) vs)).
Proof.
  intros He Hs H. unfold enum_value in H.
  apply bind_Ok in H as (p & Hp & H). apply bind_Ok in H as ([] & Hsp & H).
  apply bind_Ok in H as ([] & Hn & H). apply guard_Ok in Hn.
  apply bind_Ok in H as ([] & Hk & H). apply guard_Ok in Hk.
  apply bind_Ok in H as (v & Hv & H). apply of_opt_Ok in Hv.
  apply bind_Ok in H as ([] & Hl & H). apply guard_Ok in Hl.
  apply bind_Ok in H as ([] & Hu & H). apply guard_Ok in Hu.
  apply bind_Ok in H as ([s d] & Hver & H). apply bind_Ok in H as (dn & _ & H).
  unfold single_props in Hsp. apply bind_Ok in Hsp as (us & Hsp & _).
  assert (Hname : exists v, find_prop p (L "name") = Some v).
  { apply find_of_count. apply mapM_Forall2 in Hsp. inversion Hsp as [|? [] ? ? A]. exact A. }
  assert (Hval : exists v, find_prop p (L "val") = Some v).
  { apply find_of_count. apply mapM_Forall2 in Hsp. inversion Hsp as [|? [] ? ? A B]. inversion B as [|? [] ? ? C]. exact C. }
  destruct Hname as [name Ename], Hval as [val Eval].
  unfold get_prop in *. rewrite Ename, Eval in *.
  assert (Hnk : ~ In name (map fst vs)).
  { intros I. apply has_key_iff in I. rewrite I in Hk. discriminate. }
  injection H as <-. eexists (name, mkVal v s d _ _).
  split; [reflexivity|]. split; [|split; [|split]].
  - destruct Hs as [N F]. split.
    + rewrite map_app. cbn [map fst]. apply NoDup_snoc; auto.
    + apply Forall_app. split; [exact F|]. constructor; [|constructor].
      unfold sp_ok; cbn [fst snd v_value]. split; [exact Hn|]. split; [|exact Hl].
      apply (int_str_to_value_64 e t vs val v He); [|exact Hv]. apply (sps_64 t). split; assumption.
  - intros Hd. exists p, val. cbn [fst snd v_value v_since v_depr].
    apply versions_spec in Hver as (V1 & V2 & V3); [|exact Hd].
    split; [exact Hp|]. split; [exact Ename|]. split; [apply parseIsValidName_spec; exact Hn|].
    split; [exact Hnk|]. split; [exact Eval|].
    split; [apply (value_text_ok e t vs val v (sps_names _ _ Hs) Hv)|]. auto.
  - cbn [snd v_since v_depr]. apply versions_ok in Hver as (_ & _ & V). lia.
  - cbn [snd v_value]. intros ->. cbn [orb] in Hu. intros I.
    apply in_map_iff in I as (y & E & Hy).
    assert (X : existsb (fun x => v_value (snd x) =? v) vs = true).
    { apply existsb_exists. exists y. split; [exact Hy|]. apply Z.eqb_eq. exact E. }
    rewrite X in Hu. discriminate.
Qed.
Lemma enum_fold e t nonU sd dp ns : env_num_ok e -> forall vs vs',
  sps_ok t vs -> foldM (enum_value e t nonU (min_type_value t) (max_type_value t) sd dp) ns vs = Ok vs' ->
  exists new, vs' = vs ++ new /\ length new = length ns /\ sps_ok t vs' /\
    (dp <= never -> special_elements e t sd dp vs ns vs') /\
    Forall (fun x => sd <= v_since (snd x) < v_depr (snd x) /\ v_depr (snd x) <= dp) new /\
    (nonU = false -> NoDup (map (fun x => v_value (snd x)) vs) -> NoDup (map (fun x => v_value (snd x)) vs')).
Proof.
  intros He. induction ns as [|n ns IH]; intros vs vs' Hs H; simpl in H.
  - injection H as <-. exists []. rewrite app_nil_r. repeat split; auto; try (apply Hs). constructor.
  - apply bind_Ok in H as (v1 & H1 & H).
    destruct (enum_value_ok _ _ _ _ _ _ _ _ He Hs H1) as (x & E1 & S1 & El & Vx & U1).
    destruct (IH _ _ S1 H) as (new & E & Len & S2 & Els & F & U).
    exists (x :: new). split; [rewrite E, E1, <- app_assoc; reflexivity|].
    split; [simpl; congruence|]. split; [exact S2|]. split; [|split].
    + intros Hd. econstructor; [apply El, Hd|]. rewrite <- E1. apply Els, Hd.
    + constructor; auto.
    + intros N ND. apply (U N). rewrite E1, map_app. apply NoDup_snoc; auto.
Qed.

Lemma enum_parse_facts e c p n old s : env_num_ok e -> eopt_inv old -> enum_parse e c p n old = Ok s ->
  enum_inv s /\
  (forall o, old = Some o -> en_type s = en_type o /\ en_length s = en_length o) /\
  (exists new, en_values s = eold old en_values [] ++ new /\
     length new = length (parseGetChildrenNamed n (L "validValue")) /\
     (c_deprecated c <= never ->
        special_elements e (en_type s) (c_since c) (c_deprecated c) (eold old en_values [])
           (parseGetChildrenNamed n (L "validValue")) (en_values s)) /\
     Forall (fun x => c_since c <= v_since (snd x) < v_depr (snd x) /\ v_depr (snd x) <= c_deprecated c) new) /\
  (en_nonUnique s = false -> NoDup (map (fun x => v_value (snd x)) (eold old en_values [])) ->
     NoDup (map (fun x => v_value (snd x)) (en_values s))) /\
  (match get_prop p (L "defaultValue") with
   | [] => en_default s = eold old en_default 0
   | tx => value_text (en_type s) (e_num e) (numbers (en_values s)) tx (en_default s) end).
Proof.
  intros He Ho H. unfold enum_parse in H.
  apply bind_Ok in H as (t & Ht & H). apply bind_Ok in H as (en & Hen & H).
  apply bind_Ok in H as (len & Hlen & H). apply bind_Ok in H as (bits & Hbits & H).
  apply bind_Ok in H as (nonU & _ & H). apply bind_Ok in H as (vcv & _ & H).
  apply bind_Ok in H as (mn & Hmn & H). apply bind_Ok in H as (mx & Hmx & H).
  apply bind_Ok in H as (vs & Hvs & H). apply bind_Ok in H as (d & Hd & H).
  apply bind_Ok in H as (hex & _ & H). apply bind_Ok in H as (al & _ & H). injection H as <-.
  assert (Et : match old with None => True | Some o => t = en_type o end).
  { apply int_update_type_spec in Ht. destruct old; simpl in *; auto. }
  assert (Hl : 0 < len <= max_type_length t /\ (forall o, old = Some o -> len = en_length o)).
  { destruct old as [o|]; simpl in *.
    - subst t. destruct (einv_bits _ Ho) as (B1 & _).
      apply int_update_length_spec in Hlen; [|auto]. split; [tauto|]. intros o' [= <-]. apply Hlen. lia.
    - apply int_update_length_spec in Hlen; [|auto]. split; [tauto|discriminate]. }
  destruct Hl as [Hl Hl'].
  assert (Hb : bits_ok t len bits).
  { eapply int_update_bits_spec; eauto. destruct old as [o|]; [right|auto].
    simpl in Et. subst t. rewrite (Hl' o eq_refl). apply (einv_bits _ Ho). }
  assert (Hold : sps_ok t (eold old en_values [])).
  { destruct old as [o|]; simpl in *; [subst; apply (einv_vals _ Ho)|split; constructor]. }
  assert (HV : exists new, vs = eold old en_values [] ++ new /\
     length new = length (parseGetChildrenNamed n (L "validValue")) /\ sps_ok t vs /\
     (c_deprecated c <= never -> special_elements e t (c_since c) (c_deprecated c) (eold old en_values [])
           (parseGetChildrenNamed n (L "validValue")) vs) /\
     Forall (fun x => c_since c <= v_since (snd x) < v_depr (snd x) /\ v_depr (snd x) <= c_deprecated c) new /\
     (nonU = false -> NoDup (map (fun x => v_value (snd x)) (eold old en_values [])) -> NoDup (map (fun x => v_value (snd x)) vs)) /\
     vs <> []).
  { unfold enum_update_values in Hvs. fold (eold old en_values []) in Hvs.
    destruct (parseGetChildrenNamed n (L "validValue")) as [|n0 ns] eqn:En.
    - destruct (eold old en_values []) as [|v0 vr] eqn:Ev; [discriminate|]. injection Hvs as <-.
      exists []. rewrite app_nil_r. repeat split; auto; try apply Hold; try constructor. discriminate.
    - destruct (enum_fold _ _ _ _ _ _ He _ _ Hold Hvs) as (new & X1 & X2 & X3 & X4 & X5 & X6).
      exists new. split; [exact X1|]. split; [exact X2|]. split; [exact X3|]. split; [exact X4|]. split; [exact X5|]. split; [exact X6|].
      intros E. rewrite E in X1. symmetry in X1. apply app_eq_nil in X1 as [_ X1]. subst. discriminate. }
  destruct HV as (new & V1 & V2 & V3 & V4 & V5 & V6 & V7).
  assert (HD : is64 d /\ in_limits (is_big t) (min_type_value t) (max_type_value t) d = true /\
     (match get_prop p (L "defaultValue") with
      | [] => d = eold old en_default 0
      | tx => value_text t (e_num e) (numbers vs) tx d end)).
  { unfold int_update_default in Hd. apply bind_Ok in Hd as ([] & _ & Hd).
    destruct (get_prop p (L "defaultValue")) as [|ch r]; simpl in Hd.
    - injection Hd as <-. destruct old as [o|]; simpl in *.
      + subst t. destruct (einv_default _ Ho). auto.
      + split; [num|]. split; [apply zero_in_type|reflexivity].
    - apply default_internal_ok in Hd as (A & B & C); auto. }
  destruct HD as (D1 & D2 & D3).
  split; [|split; [|split; [|split]]].
  - constructor; simpl; auto.
  - intros o ->. simpl. auto.
  - simpl. exists new. auto.
  - simpl. exact V6.
  - simpl. exact D3.
Qed.
Lemma enum_reachable_inv s : enum_reachable s -> enum_inv s.
Proof.
  induction 1 as [e c p n s He H|e c p n o s He Hr IH H].
  - eapply enum_parse_facts with (old := None); eauto. exact I.
  - eapply enum_parse_facts with (old := Some o); eauto.
Qed.
Lemma enum_start_inv old : enum_start_ok old -> eopt_inv old.
Proof. destruct old; simpl; [apply enum_reachable_inv|auto]. Qed.

(** ** <set> *)
Definition bit_ok (x : str * bit_info) : Prop :=
  parseIsValidName (fst x) = true /\ 0 <= b_idx (snd x) /\ b_since (snd x) < b_depr (snd x).
Definition agree (a b : bit_info) : Prop :=
  b_idx a = b_idx b -> overlap a b ->
  b_default a = b_default b /\ b_reserved a = b_reserved b /\ b_reservedValue a = b_reservedValue b.
Record set_inv (s : set_state) : Prop := {
  sinv_type : exists t, s_type s = Some t /\ is_unsigned t = true /\ 0 < s_length s <= max_type_length t;
  sinv_bits : 0 < s_bitLength s <= 8 * s_length s;
  sinv_names : NoDup (map fst (s_bits s));
  sinv_ok : Forall bit_ok (s_bits s);
  sinv_unique : s_nonUnique s = false -> NoDup (map (fun x => b_idx (snd x)) (s_bits s));
  sinv_agree : ForallOrdPairs (fun x y => agree (snd x) (snd y)) (s_bits s) }.
Definition sopt_inv (o : option set_state) : Prop := match o with None => True | Some s => set_inv s end.
Definition sold {A} (old : option set_state) (f : set_state -> A) (d : A) : A :=
  match old with Some o => f o | None => d end.

Lemma idx_unique_spec l : idx_unique l = true <-> NoDup (map (fun x => b_idx (snd x)) l).
Proof.
  induction l as [|x l IH]; simpl; [split; [constructor|auto]|].
  rewrite andb_true_iff, IH, negb_true_iff. split.
  - intros [A B]. constructor; [|exact B]. intros I. apply in_map_iff in I as (y & E & Hy).
    assert (X : existsb (fun y => b_idx (snd y) =? b_idx (snd x)) l = true).
    { apply existsb_exists. exists y. split; [exact Hy|]. apply Z.eqb_eq. exact E. }
    congruence.
  - intros N. inversion N as [|? ? N1 N2]; subst. split; [|exact N2].
    apply not_true_is_false. intros X. apply existsb_exists in X as (y & Hy & E). apply Z.eqb_eq in E.
    apply N1. apply in_map_iff. eauto.
Qed.
Lemma agree_sym a b : agree a b -> agree b a.
Proof.
  unfold agree. intros H E (v & O1 & O2). destruct H as (A & B & C); [congruence|exists v; auto|]. auto.
Qed.
Lemma FOP_snoc {A} (R : A -> A -> Prop) l x : ForallOrdPairs R l -> Forall (fun y => R y x) l -> ForallOrdPairs R (l ++ [x]).
Proof.
  intros H. induction H as [|a l F H IH]; intros G; simpl; [repeat constructor|].
  inversion G; subst. constructor; [|auto]. apply Forall_app. split; [exact F|]. auto.
Qed.
Lemma set_bool_text e s b : set_str_to_value e s = Some b <-> bit_text e s b.
Proof.
  unfold set_str_to_value, bit_text. assert (E : field_refs_supported e = (e_dsl e =? 0) || (2 <=? e_dsl e)) by reflexivity.
  destruct (parseStrToBool s) as [b'|].
  - split; [intros [= ->]; auto|]. intros [H|[H _]]; [exact H|discriminate].
  - rewrite E. destruct ((e_dsl e =? 0) || (2 <=? e_dsl e)) eqn:X.
    + split; [intros ->; right; split; [reflexivity|]; split; [lia|reflexivity]|].
      intros [H|(_ & _ & H)]; [discriminate|exact H].
    + split; [discriminate|]. intros [H|(_ & H & _)]; [discriminate|lia].
Qed.
Lemma set_bit_bool_spec e p k d b : set_bit_bool e p k d = Ok b -> bit_prop e (find_prop p k) d b.
Proof.
  unfold set_bit_bool, get_prop, bit_prop. destruct (find_prop p k) as [[|a r]|]; simpl.
  - intros [= ->]; reflexivity.
  - intros H. apply of_opt_Ok in H. apply set_bool_text. exact H.
  - intros [= ->]; reflexivity.
Qed.
Lemma set_bit_ok e nonU dv rv bl sd dp bs n bs' : set_bit e nonU dv rv bl sd dp bs n = Ok bs' ->
  exists x, bs' = bs ++ [x] /\ bit_ok x /\ b_idx (snd x) < bl /\ ~ In (fst x) (map fst bs) /\
    (dp <= never -> bit_element e dv rv bl sd dp n x) /\
    (sd <= b_since (snd x) /\ b_depr (snd x) <= dp) /\
    (nonU = false -> ~ In (b_idx (snd x)) (map (fun y => b_idx (snd y)) bs)) /\
    Forall (fun y => agree (snd y) (snd x)) bs.
Proof.
  intros H. unfold set_bit in H.
  apply bind_Ok in H as (p & Hp & H). apply bind_Ok in H as ([] & Hsp & H).
  apply bind_Ok in H as ([] & Hn & H). apply guard_Ok in Hn.
  apply bind_Ok in H as ([] & Hk & H). apply guard_Ok in Hk.
  apply bind_Ok in H as (idx & Hidx & H). apply of_opt_Ok in Hidx.
  apply bind_Ok in H as ([] & Hlt & H). apply guard_Ok in Hlt.
  apply bind_Ok in H as ([] & Hu & H). apply guard_Ok in Hu.
  apply bind_Ok in H as (d1 & Hd1 & H). apply bind_Ok in H as (r1 & Hr1 & H). apply bind_Ok in H as (r2 & Hr2 & H).
  apply bind_Ok in H as ([s d] & Hver & H).
  apply bind_Ok in H as ([] & Hrs & H). apply guard_Ok in Hrs.
  apply bind_Ok in H as ([] & Hag & H). apply guard_Ok in Hag. apply bind_Ok in H as (dn & _ & H).
  unfold single_props in Hsp. apply bind_Ok in Hsp as (us & Hsp & _).
  assert (Hname : exists v, find_prop p (L "name") = Some v).
  { apply find_of_count. apply mapM_Forall2 in Hsp. inversion Hsp as [|? [] ? ? A]. exact A. }
  assert (Hval : exists v, find_prop p (L "idx") = Some v).
  { apply find_of_count. apply mapM_Forall2 in Hsp. inversion Hsp as [|? [] ? ? A B]. inversion B as [|? [] ? ? C]. exact C. }
  destruct Hname as [name Ename], Hval as [val Eval].
  assert (Gn : get_prop p (L "name") = name) by (unfold get_prop; rewrite Ename; reflexivity).
  assert (Gi : get_prop p (L "idx") = val) by (unfold get_prop; rewrite Eval; reflexivity).
  rewrite Gn in *. rewrite Gi in *.
  injection H as <-. eexists (name, mkBit idx s d d1 r1 r2 _ _).
  split; [reflexivity|]. cbn [fst snd b_idx b_since b_depr].
  pose proof (unsigned_u32 _ _ Hidx) as R.
  pose proof (versions_ok _ _ _ _ _ _ Hver) as (_ & _ & V).
  split; [|split; [lia|split; [|split; [|split; [lia|split]]]]].
  - unfold bit_ok; cbn [fst snd b_idx b_since b_depr]. split; [exact Hn|]. lia.
  - intros I. apply has_key_iff in I. rewrite I in Hk. discriminate.
  - intros Hd. exists p, val. cbn [fst snd b_idx b_since b_depr b_default b_reserved b_reservedValue].
    apply versions_spec in Hver as (V1 & V2 & V3); [|exact Hd].
    split; [exact Hp|]. split; [exact Ename|]. split; [exact Eval|].
    split; [apply unsigned_spec in Hidx; exact Hidx|]. split; [lia|].
    split; [apply set_bit_bool_spec; exact Hd1|]. split; [apply set_bit_bool_spec; exact Hr1|].
    split; [apply set_bit_bool_spec; exact Hr2|]. split; [exact V1|]. split; [exact V2|]. split; [exact V3|].
    intros ->. simpl in Hrs. unfold consistent_versions in V3. lia.
  - intros ->. cbn [orb] in Hu. intros I. apply in_map_iff in I as (y & E & Hy).
    assert (X : existsb (fun x => b_idx (snd x) =? idx) bs = true).
    { apply existsb_exists. exists y. split; [exact Hy|]. apply Z.eqb_eq. exact E. }
    rewrite X in Hu. discriminate.
  - apply Forall_forall. intros y Hy E (v & O1 & O2). cbn [b_idx b_since b_depr b_default b_reserved b_reservedValue] in *.
    apply orb_true_iff in Hag as [Hag|Hag].
    + apply negb_true_iff in Hag. subst nonU. cbn [orb] in Hu.
      assert (X : existsb (fun x => b_idx (snd x) =? idx) bs = true).
      { apply existsb_exists. exists y. split; [exact Hy|]. apply Z.eqb_eq. exact E. }
      rewrite X in Hu. discriminate.
    + rewrite forallb_forall in Hag. specialize (Hag y).
      assert (Hf : In y (filter (fun x => b_idx (snd x) =? idx) bs)).
      { apply filter_In. split; [exact Hy|]. apply Z.eqb_eq. exact E. }
      specialize (Hag Hf). unfold bits_agree in Hag.
      cbn [b_idx b_since b_depr b_default b_reserved b_reservedValue] in Hag.
      apply orb_true_iff in Hag as [Hag|Hag]; [lia|].
      apply andb_true_iff in Hag as [Hag A3]. apply andb_true_iff in Hag as [A1 A2].
      apply Bool.eqb_prop in A1, A2, A3. auto.
Qed.
Lemma set_fold e nonU dv rv bl sd dp ns : forall bs bs',
  foldM (set_bit e nonU dv rv bl sd dp) ns bs = Ok bs' ->
  exists new, bs' = bs ++ new /\ Forall (fun x => b_idx (snd x) < bl) new /\
    (dp <= never -> Forall2 (bit_element e dv rv bl sd dp) ns new) /\
    Forall (fun x => sd <= b_since (snd x) /\ b_depr (snd x) <= dp) new /\
    (NoDup (map fst bs) -> NoDup (map fst bs')) /\ (Forall bit_ok bs -> Forall bit_ok bs') /\
    (nonU = false -> NoDup (map (fun x => b_idx (snd x)) bs) -> NoDup (map (fun x => b_idx (snd x)) bs')) /\
    (ForallOrdPairs (fun x y => agree (snd x) (snd y)) bs -> ForallOrdPairs (fun x y => agree (snd x) (snd y)) bs').
Proof.
  induction ns as [|n ns IH]; intros bs bs' H; simpl in H.
  - injection H as <-. exists []. rewrite app_nil_r. repeat split; auto.
  - apply bind_Ok in H as (b1 & H1 & H).
    destruct (set_bit_ok _ _ _ _ _ _ _ _ _ _ H1) as (x & E1 & K & Ki & Kn & Ke & Kv & Ku & Ka).
    destruct (IH _ _ H) as (new & E & F1 & F2 & F3 & F4 & F5 & F6 & F7).
    exists (x :: new). split; [rewrite E, E1, <- app_assoc; reflexivity|].
    split; [constructor; auto|]. split; [intros Hd; constructor; auto|]. split; [constructor; auto|].
    split; [|split; [|split]].
    + intros N. apply F4. rewrite E1, map_app. apply NoDup_snoc; auto.
    + intros G. apply F5. rewrite E1. apply Forall_app. auto.
    + intros N G. apply F6; [exact N|]. rewrite E1, map_app. apply NoDup_snoc; auto.
    + intros G. apply F7. rewrite E1. apply FOP_snoc; auto.
Qed.

Lemma set_update_type_spec p old t : set_update_type p old = Ok t ->
  (forall o, old = Some o -> is_unsigned o = true) -> 
  (forall x, t = Some x -> is_unsigned x = true) /\ (forall o, old = Some o -> t = Some o).
Proof.
  unfold set_update_type. intros H Ho. apply bind_Ok in H as ([] & _ & H).
  destruct (find_prop p (L "type")).
  - apply bind_Ok in H as (x & _ & H). apply bind_Ok in H as ([] & Hu & H). apply guard_Ok in Hu.
    destruct old as [o|].
    + destruct (int_type_eqb o x); [|discriminate]. injection H as <-. split; auto.
    + injection H as <-. split; [intros y [= <-]; exact Hu|discriminate].
  - injection H as <-. split; auto.
Qed.
Lemma set_type_map_spec len t : set_type_map len = Ok t -> is_unsigned t = true /\ 0 < len <= max_type_length t /\
  (forall t', is_unsigned t' = true -> len <= max_type_length t' -> max_type_length t <= max_type_length t').
Proof.
  unfold set_type_map.
  destruct (Z.eqb_spec len 1); [intros [= <-]; subst; split; [reflexivity|]; split; [simpl; lia|]; intros []; simpl; try discriminate; lia|].
  destruct (Z.eqb_spec len 2); [intros [= <-]; subst; split; [reflexivity|]; split; [simpl; lia|]; intros []; simpl; try discriminate; lia|].
  destruct ((len =? 3) || (len =? 4)) eqn:E1; [intros [= <-]; split; [reflexivity|]; split; [simpl; lia|]; intros []; simpl; try discriminate; lia|].
  destruct ((5 <=? len) && (len <=? 8)) eqn:E2; [intros [= <-]; split; [reflexivity|]; split; [simpl; lia|]; intros []; simpl; try discriminate; lia|].
  discriminate.
Qed.
Lemma u64_len l : 0 <= l <= 10 -> to_u64 (l * 8) = l * 8.
Proof. intros. apply to_u64_id. unfold two64. lia. Qed.
Lemma set_update_length_spec p b t ol ob t' l' bits' : set_update_length p b t ol ob = Ok (t', l', bits') ->
  (forall x, t = Some x -> is_unsigned x = true) ->
  (ol = 0 /\ ob = 0 \/ exists x, t = Some x /\ 0 < ol <= max_type_length x /\ 0 < ob <= 8 * ol) ->
  is_unsigned t' = true /\ 0 < l' <= max_type_length t' /\ 0 < bits' <= 8 * l' /\
  (forall x, t = Some x -> t' = x) /\ (ol <> 0 -> l' = ol).
Proof.
  intros H Ht Ho. unfold set_update_length in H. cbv zeta in H. apply bind_Ok in H as ([] & Hm & H).
  apply bind_Ok in H as (len & Hlen & H). apply bind_Ok in H as ([] & Hmb & H).
  apply bind_Ok in H as (bits & Hbits & H). apply bind_Ok in H as (tt' & Htt & H). injection H as <- <- <-.
  pose proof max_len_pos as MP.
  set (mx := match t with Some t => max_type_length t | None => 8 end) in *.
  assert (Hmx : 0 < mx <= 10) by (unfold mx; destruct t; [apply MP|lia]).
  (* the length *)
  assert (HL : 0 <= len <= mx /\ (ol <> 0 -> len = ol) /\ (forall x, t = Some x -> 0 < len)).
  { destruct (is_nil (get_prop p (L "length"))).
    - injection Hlen as <-. destruct t as [x|]; cbn [negb andb] in *.
      + rewrite andb_true_r. destruct (Z.eqb_spec ol 0).
        * split; [lia|]. split; [lia|]. intros; lia.
        * destruct Ho as [[? ?]|(y & [= <-] & ? & ?)]; [contradiction|]. unfold mx in *. split; [lia|]. split; [lia|]. intros; lia.
      + rewrite andb_false_r. destruct Ho as [[-> ?]|(y & ? & _)]; [|discriminate]. split; [lia|]. split; [lia|]. discriminate.
    - apply bind_Ok in Hlen as (v & Hv & Hlen). apply of_opt_Ok in Hv. apply stoull_nn in Hv.
      destruct ((v =? 0) || (mx <? v)) eqn:E1; [discriminate|].
      destruct (Z.eqb_spec ol v); [injection Hlen as <-; split; [lia|]; split; [lia|]; intros; lia|].
      destruct (Z.eqb_spec ol 0); cbn [negb] in Hlen; [|discriminate]. injection Hlen as <-.
      split; [lia|]. split; [lia|]. intros; lia. }
  destruct HL as (HL1 & HL2 & HL3).
  assert (HB : len <> 0 -> 0 < bits <= 8 * len).
  { intros Hne. pose proof (u64_len len ltac:(lia)) as U.
    destruct (is_nil (get_prop p (L "bitLength"))).
    - injection Hbits as <-. destruct (Z.eqb_spec ob 0); [lia|].
      destruct Ho as [[? ?]|(y & Ey & ? & ?)]; [contradiction|]. rewrite HL2 by lia. lia.
    - destruct b; cbn [negb] in Hbits; [|injection Hbits as <-; lia].
      apply bind_Ok in Hbits as (v & Hv & Hbits). apply of_opt_Ok in Hv. apply stoull_nn in Hv.
      destruct (Z.eqb_spec v 0); [discriminate|].
      destruct (Z.eqb_spec len 0); cbn [negb andb] in Hbits; [contradiction|].
      destruct (Z.ltb_spec (to_u64 (len * 8)) v); [discriminate|]. injection Hbits as <-. lia. }
  assert (HB0 : len = 0 -> 0 <= bits).
  { intros ->. change (to_u64 (0 * 8)) with 0 in Hbits. destruct (is_nil (get_prop p (L "bitLength"))).
    - injection Hbits as <-. destruct (Z.eqb_spec ob 0); [lia|].
      destruct Ho as [[? ?]|(y & Ey & ? & ?)]; [contradiction|lia].
    - destruct b; cbn [negb] in Hbits; [|injection Hbits as <-; lia].
      apply bind_Ok in Hbits as (v & Hv & Hbits). apply of_opt_Ok in Hv. apply stoull_nn in Hv.
      destruct (v =? 0); [discriminate|]. cbn [Z.eqb negb andb] in Hbits. injection Hbits as <-. lia. }
  destruct t as [x|].
  - injection Htt as <-. specialize (HL3 x eq_refl).
    destruct (Z.eqb_spec len 0); [lia|]. cbn [andb].
    split; [auto|]. split; [unfold mx in *; lia|]. split; [apply HB; lia|]. split; [congruence|]. intros; auto.
  - apply set_type_map_spec in Htt as (U & R & _). split; [exact U|]. split; [lia|].
    destruct Ho as [[-> _]|(y & ? & _)]; [|discriminate].
    split; [|split; [discriminate|lia]].
    destruct (Z.eqb_spec len 0) as [->|]; cbn [andb] in *; [|auto].
    destruct (Z.eqb_spec bits 0) as [->|]; cbn [negb] in *; [lia|].
    specialize (HB0 eq_refl). pose proof (Z.div_mod (bits - 1) 8 ltac:(lia)). pose proof (Z.mod_pos_bound (bits - 1) 8 ltac:(lia)). lia.
Qed.

Lemma set_parse_facts e c p n old s : sopt_inv old -> set_parse e c p n old = Ok s ->
  set_inv s /\
  (forall o, old = Some o -> s_type s = s_type o /\ s_length s = s_length o) /\
  (exists new, s_bits s = sold old s_bits [] ++ new /\
     Forall (fun x => b_idx (snd x) < s_bitLength s) new /\
     (c_deprecated c <= never ->
       Forall2 (bit_element e (s_defaultBit s) (s_reservedBit s) (s_bitLength s) (c_since c) (c_deprecated c))
          (parseGetChildrenNamed n (L "bit")) new) /\
     Forall (fun x => c_since c <= b_since (snd x) /\ b_depr (snd x) <= c_deprecated c) new).
Proof.
  intros Ho H. unfold set_parse in H.
  apply bind_Ok in H as (en & _ & H). apply bind_Ok in H as (t & Ht & H).
  apply bind_Ok in H as ([[t' len] bits] & Hlen & H). apply bind_Ok in H as (nonU & Hnon & H).
  apply bind_Ok in H as (vcv & _ & H). apply bind_Ok in H as (dv & _ & H). apply bind_Ok in H as (rv & _ & H).
  apply bind_Ok in H as (al & _ & H). apply bind_Ok in H as (bs & Hbs & H). injection H as <-.
  fold (sold old s_bits []) in Hbs, Hnon.
  apply set_update_type_spec in Ht as [Ht1 Ht2].
  2:{ intros o E. destruct old as [so|]; [|discriminate]. simpl in E. destruct (sinv_type _ Ho) as (x & Ex & U & _). congruence. }
  apply set_update_length_spec in Hlen as (L1 & L2 & L3 & L4 & L5).
  2:{ exact Ht1. }
  2:{ destruct old as [so|]; [right|left; auto]. destruct (sinv_type _ Ho) as (x & Ex & U & R).
      exists x. split; [apply Ht2; simpl; exact Ex|]. split; [exact R|apply (sinv_bits _ Ho)]. }
  destruct (set_fold _ _ _ _ _ _ _ _ _ _ Hbs) as (new & F0 & F1 & F2 & F3 & F4 & F5 & F6 & F7).
  assert (HN : NoDup (map fst (sold old s_bits [])) /\ Forall bit_ok (sold old s_bits []) /\
     ForallOrdPairs (fun x y => agree (snd x) (snd y)) (sold old s_bits [])).
  { destruct old as [so|]; simpl; [|repeat split; constructor].
    split; [apply (sinv_names _ Ho)|]. split; [apply (sinv_ok _ Ho)|apply (sinv_agree _ Ho)]. }
  destruct HN as (N1 & N2 & N3).
  assert (HU : nonU = false -> NoDup (map (fun x => b_idx (snd x)) (sold old s_bits []))).
  { intros ->. unfold set_update_nonunique in Hnon. apply bind_Ok in Hnon as (nv & _ & Hnon).
    assert (K : (match old with Some o => s_nonUnique o | None => false end) = false ->
        NoDup (map (fun x => b_idx (snd x)) (sold old s_bits []))).
    { destruct old as [so|]; simpl; [apply (sinv_unique _ Ho)|constructor]. }
    destruct (is_nil _); [injection Hnon as Hnon; auto|].
    destruct (match old with Some o => s_nonUnique o | None => false end) eqn:Eo; [|auto]. simpl in Hnon.
    destruct nv; simpl in Hnon; [discriminate|].
    destruct (idx_unique (sold old s_bits [])) eqn:Eu; [apply idx_unique_spec; exact Eu|discriminate]. }
  split; [|split].
  - constructor; simpl; auto. exists t'. auto.
  - intros o ->. simpl in *. destruct (sinv_type _ Ho) as (x & Ex & U & R). split.
    + rewrite Ex. f_equal. apply L4. apply Ht2. exact Ex.
    + apply L5. lia.
  - simpl. exists new. auto.
Qed.
Lemma set_reachable_inv s : set_reachable s -> set_inv s.
Proof.
  induction 1 as [e c p n s H|e c p n o s Hr IH H].
  - eapply set_parse_facts with (old := None); eauto. exact I.
  - eapply set_parse_facts with (old := Some o); eauto.
Qed.
