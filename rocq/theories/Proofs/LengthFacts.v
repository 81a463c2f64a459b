(** Reported lengths. *)
From Coq Require Import ZifyBool ZifyNat.
From Verif.Model Require Import Base Common Xml Units Field FieldCommon IntField EnumField SetField FloatField OptCond Composite.
From Verif.Spec Require Import Texts Ints Versions IntSpec EnumSpec CondSpec XmlSpec FieldSpec LengthSpec.
From Verif.Proofs Require Import BaseFacts CommonFacts IntFacts IntInv EnumInv FieldInv FieldFacts OwnFacts.

(** ** the scalar parts of accepted fields *)
Definition leaf_reachable (f : field) : Prop :=
  match f with
  | FInt _ s => int_reachable s
  | FEnum _ s => enum_reachable s
  | FSet _ s => set_reachable s
  | _ => True
  end.
Lemma accepted_leaves f : accepted f -> all leaf_reachable f.
Proof.
  apply accepted_all.
  - intros g H. apply all_here in H. destruct g; exact H.
  - intros v g H. apply all_here in H. destruct g; exact H.
  - intros fuel e x n k p c0 old repl c f0 He _ _ _ _ Hr Hold _ _ _ Hkp _ _.
    pose proof (reuse_old_ok _ _ _ _ _ _ Hr) as Ho.
    pose proof (kind_parse_common _ _ _ _ _ _ _ _ _ _ _ Hkp) as (K & _). unfold kind_parse in Hkp.
    destruct k; try (destruct f0; try discriminate K; exact I).
    + apply bind_Ok in Hkp as (u & _ & H). apply bind_Ok in H as (s & H & E). injection E as <-. cbn.
      destruct old as [o|]; [|eapply ir_fresh; eassumption].
      specialize (Ho o eq_refl). specialize (Hold o eq_refl). apply all_here in Hold.
      destruct o; try discriminate Ho. eapply ir_reuse; eassumption.
    + apply bind_Ok in Hkp as (u & _ & H). apply bind_Ok in H as (s & H & E). injection E as <-. cbn.
      destruct old as [o|]; [|eapply er_fresh; eassumption].
      specialize (Ho o eq_refl). specialize (Hold o eq_refl). apply all_here in Hold.
      destruct o; try discriminate Ho. eapply er_reuse; eassumption.
    + apply bind_Ok in Hkp as (u & _ & H). apply bind_Ok in H as (s & H & E). injection E as <-. cbn.
      destruct old as [o|]; [|eapply sr_fresh; eassumption].
      specialize (Ho o eq_refl). specialize (Hold o eq_refl). apply all_here in Hold.
      destruct o; try discriminate Ho. eapply sr_reuse; eassumption.
Qed.

Definition u32 (z : Z) : Prop := 0 <= z < two32.
Lemma unsigned_u32 t z : parseStrToUnsigned t = Some z -> u32 z.
Proof. unfold parseStrToUnsigned. destruct (stoull t); cbn; [|discriminate]. intros H. injection H as <-. unfold u32, to_u32, two32. lia. Qed.
Definition scalars (f : field) : Prop :=
  match f with
  | FFloat _ s => f_length s = float_bytes (f_type s)
  | FString _ s _ => u32 (st_length s)
  | FData _ s _ => u32 (d_length s)
  | FList _ s _ _ _ _ _ => u32 (l_count s)
  | FRef _ b _ => 0 <= b < two64
  | _ => True
  end.
Lemma fixed_length_u32 p old a b l : update_fixed_length p old a b = Ok l -> u32 old -> u32 l.
Proof.
  unfold update_fixed_length. intros H O. inv_ok. destruct (find_prop p (L "length")); inv_ok; [|exact O].
  match goal with H : (if ?q then _ else _) = _ |- _ => destruct q; inv_ok; [exact O|] end. eapply unsigned_u32; eassumption.
Qed.
Lemma u32_0 : u32 0. Proof. unfold u32, two32. lia. Qed.
Lemma accepted_scalars f : accepted f -> all scalars f.
Proof.
  apply accepted_all.
  - intros g H. apply all_here in H. destruct g; exact H.
  - intros v g H. apply all_here in H. destruct g; exact H.
  - intros fuel e x n k p c0 old repl c f0 He _ _ _ _ Hr Hold _ _ _ Hkp _ _.
    pose proof (reuse_old_ok _ _ _ _ _ _ Hr) as Ho.
    pose proof (kind_parse_common _ _ _ _ _ _ _ _ _ _ _ Hkp) as (K & _). unfold kind_parse in Hkp.
    destruct k; try (destruct f0; try discriminate K; exact I); clear K.
    + apply bind_Ok in Hkp as (u & _ & H). apply bind_Ok in H as (s & H & E). injection E as <-. cbn.
      unfold float_parse in H. apply bind_Ok in H as (t & _ & H). inv_all. cbn. destruct t; reflexivity.
    + apply bind_Ok in Hkp as (u & _ & H). unfold string_parse in H.
      match type of H with (let (_, _) := ?t in _) = _ => assert (X : u32 (st_length (fst t))) end.
      { destruct old as [o|]; [|exact u32_0]. specialize (Ho o eq_refl). specialize (Hold o eq_refl). apply all_here in Hold.
        destruct o; try discriminate Ho. exact Hold. }
      match type of H with (let (_, _) := ?t in _) = _ => destruct t as [s0 pre0] end.
      inv_all. cbn. eapply fixed_length_u32; eassumption.
    + apply bind_Ok in Hkp as (u & _ & H). unfold data_parse in H.
      match type of H with (let (_, _) := ?t in _) = _ => assert (X : u32 (d_length (fst t))) end.
      { destruct old as [o|]; [|exact u32_0]. specialize (Ho o eq_refl). specialize (Hold o eq_refl). apply all_here in Hold.
        destruct o; try discriminate Ho. exact Hold. }
      match type of H with (let (_, _) := ?t in _) = _ => destruct t as [s0 pre0] end.
      inv_all. cbn. eapply fixed_length_u32; eassumption.
    + apply bind_Ok in Hkp as (u & _ & H). unfold list_parse in H.
      match type of H with (let (_, _) := ?t in _) = _ => assert (X : u32 (l_count (fst (fst (fst (fst (fst t))))))) end.
      { destruct old as [o|]; [|exact u32_0]. specialize (Ho o eq_refl). specialize (Hold o eq_refl). apply all_here in Hold.
        destruct o; try discriminate Ho. destruct elem. exact Hold. }
      match type of H with (let (_, _) := ?t in _) = _ => destruct t as [[[[[s0 el0] cnt0] len0] elen0] term0] end.
      inv_ok. cbn. match goal with H : update_count _ _ _ = Ok _ |- _ => unfold update_count in H; inv_ok end.
      destruct (find_prop p (L "count")); inv_ok; [|exact X]. eapply unsigned_u32; eassumption.
    + apply bind_Ok in Hkp as (u & _ & H). unfold ref_parse in H. apply bind_Ok in H as (u' & _ & H).
      destruct (find_prop p (L "field")); [|destruct old as [o|]; [|discriminate]; destruct o; try discriminate].
      * assert (B : 0 <= match (match old with Some (FRef _ b t) => Some (b, t) | _ => None end) with Some (b, _) => b | None => 0 end < two64).
        { destruct old as [[]|]; cbn; try (unfold two64; lia). specialize (Hold _ eq_refl). apply all_here in Hold. exact Hold. }
        destruct (match old with Some (FRef _ b t) => Some (b, t) | _ => None end) as [[b0 t0]|]; inv_ok; cbn;
        match goal with H : ref_bit_length _ _ _ _ = Ok _ |- _ => unfold ref_bit_length in H; inv_ok;
          repeat match type of H with (if ?q then _ else _) = _ => destruct q; inv_ok end end;
        try (apply unsigned_u32 in H0); unfold u32, two32, to_u64, two64 in *; try lia;
        repeat match goal with |- context [if ?q then _ else _] => destruct q end; try lia;
        match goal with X : parseStrToUnsigned _ = Some _ |- _ => apply unsigned_u32 in X; unfold u32, two32 in X; lia end.
      * injection H as <-. specialize (Hold _ eq_refl). apply all_here in Hold. exact Hold.
Qed.

(** ** arithmetic *)
Definition u64 (z : Z) : Prop := 0 <= z < two64.
Lemma to_u64_u64 z : u64 (to_u64 z).
Proof. unfold u64, to_u64, two64. lia. Qed.
Lemma to_u64_le z : 0 <= z -> to_u64 z <= z.
Proof. unfold to_u64, two64. intros. lia. Qed.
Lemma to_u64_small z : u64 z -> to_u64 z = z.
Proof. unfold u64, to_u64, two64. intros. lia. Qed.
Definition sat (z : Z) : Z := Z.min (two64 - 1) z.
Lemma add_len_sat a b : u64 a -> u64 b -> add_len a b = sat (a + b) /\ u64 (sat (a + b)).
Proof. intros Ha Hb. rewrite add_len_spec; auto. split; [reflexivity|]. unfold u64, sat, two64 in *. lia. Qed.
Lemma mul_len_sat a b m : u64 a -> u64 b -> mul_len a b = Ok m -> 0 < b /\ m = sat (a * b) /\ u64 m.
Proof.
  intros Ha Hb H. destruct (Z.eq_dec b 0) as [->|N]; [discriminate|]. unfold u64 in *. rewrite mul_len_spec in H; [|auto|unfold two64 in *; lia].
  injection H as <-. unfold sat, two64 in *. assert (0 <= a * b) by nia. split; [lia|]. split; [reflexivity|]. lia.
Qed.
Lemma total_nonneg l : Forall (fun z => 0 <= z) l -> 0 <= total l.
Proof. induction 1; cbn; lia. Qed.
Lemma sum_u64_spec l : Forall (fun z => 0 <= z) l -> sum_u64 l = total l mod two64.
Proof.
  unfold sum_u64. assert (H : forall l a, 0 <= a -> Forall (fun z => 0 <= z) l ->
    fold_left (fun a x => to_u64 (a + x)) l (a mod two64) = (a + total l) mod two64).
  { clear. induction l as [|x l IH]; intros a Ha F; cbn; [rewrite Z.add_0_r; reflexivity|]. inversion F; subst.
    unfold to_u64 at 2. rewrite Zplus_mod_idemp_l. rewrite IH; [f_equal; lia|lia|assumption]. }
  intros F. exact (H l 0 (Z.le_refl 0) F).
Qed.
Lemma sum_u64_bounds l : Forall (fun z => 0 <= z) l -> u64 (sum_u64 l) /\ sum_u64 l <= total l.
Proof.
  intros F. pose proof (total_nonneg _ F). rewrite (sum_u64_spec _ F). unfold u64, two64. lia.
Qed.

(** ** reported lengths *)
Definition base_ok (f : field) : Prop := leaf_reachable f /\ scalars f.
Lemma all_and P Q f : all P f -> all Q f -> all (fun g => P g /\ Q g) f.
Proof.
  induction f as [f IH] using field_ind'. intros H1 H2. constructor.
  - split; [apply all_here in H1|apply all_here in H2]; assumption.
  - intros g Hg. rewrite Forall_forall in IH. apply IH; [exact Hg|eapply all_parts; eassumption|eapply all_parts; eassumption].
Qed.
Lemma all_impl (P Q : field -> Prop) f : (forall g, P g -> Q g) -> all P f -> all Q f.
Proof.
  intros I. induction f as [f IH] using field_ind'. intros H. constructor; [apply I, all_here, H|].
  intros g Hg. rewrite Forall_forall in IH. apply IH; [exact Hg|eapply all_parts; eassumption].
Qed.
Lemma accepted_base f : accepted f -> all base_ok f.
Proof. intros H. apply all_and; [apply accepted_leaves|apply accepted_scalars]; exact H. Qed.

Lemma int_len s : int_reachable s -> 1 <= i_length s <= 10 /\ 0 <= i_bitLength s <= 8 * i_length s.
Proof.
  intros H. apply int_reachable_inv in H. destruct (inv_bits _ H) as (A & B & _). destruct (i_type s); cbn in A; lia.
Qed.
Lemma enum_len s : enum_reachable s -> 1 <= en_length s <= 10 /\ 0 <= en_bitLength s <= 8 * en_length s.
Proof.
  intros H. apply enum_reachable_inv in H. destruct (einv_bits _ H) as (A & B & _). destruct (en_type s); cbn in A; lia.
Qed.
Lemma set_len s : set_reachable s -> 1 <= s_length s <= 10 /\ 0 <= s_bitLength s <= 8 * s_length s.
Proof.
  intros H. apply set_reachable_inv in H. destruct (sinv_type _ H) as (t & _ & U & A). pose proof (sinv_bits _ H).
  destruct t; cbn in A, U; try discriminate; lia.
Qed.
Lemma is_var_spec t : is_var t = true <-> variable_type t.
Proof. unfold variable_type. destruct t; cbn; split; intros H; try discriminate; auto; repeat destruct H as [H|H]; try discriminate; contradiction. Qed.

Lemma bit_length_nonneg f : base_ok f -> 0 <= bit_length f <= bits_of f.
Proof.
  intros [H1 H2]. unfold bit_length. destruct f; cbn in *; destruct (c_inBitfield _); try lia;
    first [apply int_len in H1|apply enum_len in H1|apply set_len in H1]; lia.
Qed.

Definition bundle_max := fix go (ms : list field) (sum : Z) : res Z :=
         match ms with
         | [] => Ok sum
         | m :: ms' =>
             if is_length_sem m then Ok max_len
             else x <- max_length m ;; go ms' (add_len x sum)
         end.
Definition variant_max := fix go (ms : list field) (sum : Z) : res Z :=
         match ms with
         | [] => Ok sum
         | m :: ms' => x <- max_length m ;; if x =? max_len then Ok x else go ms' (Z.max x sum)
         end.
Lemma max_bundle c ms a v : max_length (FBundle c ms a v) = bundle_max ms 0.
Proof. reflexivity. Qed.
Lemma max_variant c d ms : max_length (FVariant c d ms) = variant_max ms 0.
Proof. reflexivity. Qed.

Definition lens_ok (f : field) : Prop :=
  u64 (min_length f) /\ forall m, max_length f = Ok m -> u64 m /\ min_length f <= m.
Lemma max_len_u64 : u64 max_len.
Proof. unfold u64, max_len, uint_max, two64. lia. Qed.
Lemma u64_le_max z : u64 z -> z <= max_len.
Proof. unfold u64, max_len, uint_max, two64. lia. Qed.
Lemma min_nonneg ms : Forall lens_ok ms -> Forall (fun z => 0 <= z) (map min_length ms).
Proof. intros F. apply Forall_map. eapply Forall_impl; [|exact F]. intros g [[H _] _]. exact H. Qed.
Lemma bundle_max_le ms : Forall lens_ok ms -> forall s m, u64 s -> bundle_max ms s = Ok m ->
  u64 m /\ sat (s + total (map min_length ms)) <= m.
Proof.
  induction 1 as [|f ms [M1 M2] F IH]; intros s m Hs H; cbn [bundle_max] in H.
  - injection H as <-. split; [exact Hs|]. cbn. unfold sat. lia.
  - destruct (is_length_sem f).
    + injection H as <-. split; [apply max_len_u64|]. unfold sat, max_len, uint_max, two64. lia.
    + apply bind_Ok in H as (x & Hx & H). apply M2 in Hx as [Ux Lx].
      destruct (add_len_sat _ _ Ux Hs) as [E U]. rewrite E in H. apply IH in H as [Um Lm]; [|exact U]. split; [exact Um|].
      cbn [map total]. pose proof (total_nonneg _ (min_nonneg _ F)). unfold sat, two64, u64 in *. lia.
Qed.
Lemma variant_max_le ms : Forall lens_ok ms -> forall s m, u64 s -> variant_max ms s = Ok m -> u64 m /\ s <= m.
Proof.
  induction 1 as [|f ms [M1 M2] F IH]; intros s m Hs H; cbn [variant_max] in H.
  - injection H as <-. split; [exact Hs|lia].
  - apply bind_Ok in H as (x & Hx & H). apply M2 in Hx as [Ux Lx]. destruct (x =? max_len) eqn:E.
    + injection H as <-. split; [exact Ux|]. apply u64_le_max in Hs. lia.
    + apply IH in H as [A B]; [split; [exact A|lia]|]. unfold u64 in *. lia.
Qed.
Lemma prefix_max_ok p : int_reachable p -> u64 (add_len (to_u64 (i_max p)) (i_length p)) /\ i_length p <= add_len (to_u64 (i_max p)) (i_length p).
Proof.
  intros H. apply int_len in H. assert (U : u64 (i_length p)) by (unfold u64, two64; lia).
  destruct (add_len_sat _ _ (to_u64_u64 (i_max p)) U) as [-> U']. split; [exact U'|].
  pose proof (to_u64_u64 (i_max p)). unfold sat, u64, two64 in *. lia.
Qed.
Lemma int_min_len p : int_reachable p -> (if is_var (i_type p) then 1 else i_length p) <= i_length p.
Proof. intros H. apply int_len in H. destruct (is_var _); lia. Qed.
Lemma forall_lens ms : Forall (fun g => all base_ok g -> lens_ok g) ms -> (forall g, In g ms -> all base_ok g) -> Forall lens_ok ms.
Proof. intros F H. apply Forall_forall. intros g Hg. rewrite Forall_forall in F. auto. Qed.
Lemma bits_nonneg ms : (forall g, In g ms -> all base_ok g) -> Forall (fun z => 0 <= z) (map bit_length ms).
Proof. intros F. apply Forall_map. apply Forall_forall. intros g Hg. apply F, all_here, bit_length_nonneg in Hg. lia. Qed.
Lemma payload_lens (len : Z) (z : bool) (pre : option (bool * field)) :
  u32 len -> (forall b g, pre = Some (b, g) -> lens_ok g /\ all base_ok g) ->
  let mn := if negb (len =? 0) then len else if z then 1 else match pre with Some (_, p) => min_length p | None => 0 end in
  let mx := if negb (len =? 0) then Ok len else match pre with Some (_, FInt _ p) => Ok (add_len (to_u64 (i_max p)) (i_length p)) | _ => Ok max_len end in
  u64 mn /\ forall m, mx = Ok m -> u64 m /\ mn <= m.
Proof.
  intros Hl Hp mn mx. subst mn mx.
  destruct (Z.eqb_spec len 0) as [->|N]; cbn [negb].
  2: { assert (u64 len) by (unfold u32, u64, two32, two64 in *; lia). split; [assumption|]. intros m E. injection E as <-. split; [assumption|lia]. }
  assert (M : u64 (if z then 1 else match pre with Some (_, p) => min_length p | None => 0 end)).
  { destruct z; [unfold u64, two64; lia|]. destruct pre as [[b g]|]; [|unfold u64, two64; lia]. destruct (Hp b g eq_refl) as [[U _] _]. exact U. }
  split; [exact M|]. intros m E.
  assert (D : m = max_len \/ exists b c p, pre = Some (b, FInt c p) /\ m = add_len (to_u64 (i_max p)) (i_length p)).
  { destruct pre as [[b []]|]; injection E as <-; try (left; reflexivity). right. eauto 10. }
  destruct D as [->|(b & c & p & -> & ->)].
  - split; [apply max_len_u64|apply u64_le_max; exact M].
  - destruct (Hp _ _ eq_refl) as [_ B]. apply all_here in B. destruct B as [B _]. cbn in B.
    destruct (prefix_max_ok p B) as [U L]. split; [exact U|].
    pose proof (int_min_len p B). apply int_len in B. destruct z; [lia|]. cbn [min_length]. lia.
Qed.
Lemma mul_le_sat a b m n : u64 a -> u64 b -> mul_len a b = Ok m -> 0 <= n -> n <= a * b -> sat n <= m.
Proof. intros A B H N L. destruct (mul_len_sat _ _ _ A B H) as (_ & -> & _). unfold sat. lia. Qed.
Lemma lengths_ok f : all base_ok f -> lens_ok f.
Proof.
  induction f as [f IH] using field_ind'. intros H. pose proof (all_here _ _ H) as Hf.
  assert (HP : forall g, In g (parts f) -> lens_ok g /\ all base_ok g).
  { intros g Hg. rewrite Forall_forall in IH. assert (all base_ok g) by (eapply all_parts; eassumption). auto. }
  destruct f; cbn [parts] in *.
  - destruct Hf as [Hf _]. cbn in Hf. pose proof (int_min_len _ Hf). apply int_len in Hf. unfold lens_ok. cbn [min_length max_length].
    split; [unfold u64, two64; destruct (is_var _); lia|]. intros m E. injection E as <-. split; [unfold u64, two64|]; lia.
  - destruct Hf as [Hf _]. cbn in Hf. apply enum_len in Hf. unfold lens_ok. cbn [min_length max_length].
    split; [unfold u64, two64; destruct (is_var _); lia|]. intros m E. injection E as <-. split; [unfold u64, two64; lia|destruct (is_var _); lia].
  - destruct Hf as [Hf _]. cbn in Hf. apply set_len in Hf. unfold lens_ok. cbn [min_length max_length].
    split; [unfold u64, two64; lia|]. intros m E. injection E as <-. split; [unfold u64, two64|]; lia.
  - destruct Hf as [_ Hf]. cbn in Hf. unfold lens_ok. cbn [min_length max_length]. rewrite Hf.
    split; [unfold u64, two64; destruct (f_type s); cbn; lia|]. intros m E. injection E as <-.
    split; [unfold u64, two64; destruct (f_type s); cbn; lia|lia].
  - assert (U : u64 (min_length (FBitfield c e ms vc))).
    { cbn [min_length]. destruct (sum_u64_bounds _ (bits_nonneg ms (fun g X => proj2 (HP g X)))) as [U _]. unfold u64, two64 in *. lia. }
    split; [exact U|]. cbn [max_length]. intros m E. injection E as <-. split; [exact U|apply Z.le_refl].
  - assert (F : Forall lens_ok ms) by (apply Forall_forall; intros g Hg; apply HP; exact Hg).
    destruct (sum_u64_bounds _ (min_nonneg _ F)) as [U Le].
    split; [exact U|]. intros m E. rewrite max_bundle in E. apply bundle_max_le in E as [Um Lm]; [|exact F|unfold u64, two64; lia].
    split; [exact Um|]. cbn [min_length]. unfold sat, u64, two64 in *. lia.
  - destruct Hf as [_ Hf]. cbn in Hf. unfold lens_ok. cbn [min_length max_length]. apply payload_lens; [exact Hf|].
    intros b g ->. apply HP. left; reflexivity.
  - destruct Hf as [_ Hf]. cbn in Hf. unfold lens_ok. cbn [min_length max_length].
    apply (payload_lens (d_length s) false); [exact Hf|].
    intros b g ->. apply HP. left; reflexivity.
  - (* list *)
    destruct Hf as [_ Hf]. cbn in Hf. destruct elem as [o g]. cbn [snd] in *.
    destruct (HP g (or_introl eq_refl)) as [[Ug Mg] _].
    assert (X : forall y : option (bool * field), (forall b h, y = Some (b, h) -> lens_ok h /\ all base_ok h) ->
      u64 (match y with Some (_, p) => min_length p | None => 0 end) /\
      forall m, match y with Some (_, p) => x <- max_length p ;; Ok (add_len x 0) | None => Ok 0 end = Ok m ->
        u64 m /\ match y with Some (_, p) => min_length p | None => 0 end <= m).
    { intros [[b h]|] Hy; [|split; [unfold u64, two64; lia|intros m E; injection E as <-; split; [unfold u64, two64; lia|lia]]].
      destruct (Hy b h eq_refl) as [[U M] _]. split; [exact U|]. intros m E. apply bind_Ok in E as (x & Hx & E). injection E as <-.
      apply M in Hx as [Ux Lx]. assert (Z0 : u64 0) by (unfold u64, two64; lia). destruct (add_len_sat x 0 Ux Z0) as [-> U']. split; [exact U'|].
      unfold sat, u64, two64 in *. lia. }
    assert (Hin : forall y, y = cnt \/ y = len \/ y = elemLen \/ y = term -> forall b h, y = Some (b, h) -> lens_ok h /\ all base_ok h).
    { intros y Hy b h ->. apply HP. right. repeat rewrite in_app_iff.
      destruct Hy as [<-|[<-|[<-|<-]]]; cbn; tauto. }
    assert (Hu : u64 (l_count s)) by (unfold u32, u64, two32, two64 in *; lia).
    destruct (X elemLen (Hin elemLen ltac:(auto))) as [Ue Me].
    pose proof (Hin cnt ltac:(auto)) as Hcnt. pose proof (Hin len ltac:(auto)) as Hlen. pose proof (Hin term ltac:(auto)) as Hterm.
    unfold lens_ok. cbn [min_length max_length snd].
    set (me := match elemLen with Some (_, p) => min_length p | None => 0 end) in *.
    destruct (Z.eqb_spec (l_count s) 0) as [E0|N0]; cbn [negb].
    + assert (U : u64 match cnt with Some (_, p) => min_length p | None => match len with Some (_, p) => min_length p
          | None => match term with Some (_, p) => min_length p | None => 0 end end end).
      { destruct cnt as [[b h]|]; [destruct (Hcnt b h eq_refl) as [[U _] _]; exact U|]. destruct len as [[b h]|]; [destruct (Hlen b h eq_refl) as [[U _] _]; exact U|].
        destruct term as [[b h]|]; [destruct (Hterm b h eq_refl) as [[U _] _]; exact U|]. unfold u64, two64; lia. }
      split; [exact U|]. intros m E. apply bind_Ok in E as (ex & Hex & E). apply bind_Ok in E as (em & Hem & E).
      apply Me in Hex as [Uex _]. apply Mg in Hem as [Uem _].
      destruct cnt as [[b h]|].
      * destruct h as [c0 p| | | | | | | | | | |]; try discriminate E.
        apply bind_Ok in E as (r & Hr & E). apply bind_Ok in E as (x & Hx & E). injection E as <-.
        destruct (Hcnt _ _ eq_refl) as [_ B]. apply all_here in B. destruct B as [B _]. cbn in B.
        destruct (mul_len_sat _ _ _ Uem (to_u64_u64 _) Hr) as (_ & _ & Ur).
        assert (Ux : u64 x). { destruct (l_elemFixedLength s); [injection Hx as <-; exact Uex|].
          destruct (mul_len_sat _ _ _ Uex (to_u64_u64 _) Hx) as (_ & _ & Y). exact Y. }
        pose proof (int_min_len p B) as Lp. apply int_len in B.
        assert (Up : u64 (i_length p)) by (unfold u64, two64; lia).
        destruct (add_len_sat _ _ Up Ur) as [E1 U1]. rewrite E1. destruct (add_len_sat _ _ Ux U1) as [E2 U2]. rewrite E2.
        split; [exact U2|]. cbn [min_length]. unfold sat, u64, two64 in *. lia.
      * assert (D : m = max_len \/ exists b c p, len = Some (b, FInt c p) /\ m = add_len (to_u64 (i_max p)) (i_length p)).
        { destruct len as [[b []]|]; injection E as <-; try (left; reflexivity). right. eauto 10. }
        destruct D as [->|(b & c' & p & -> & ->)].
        -- split; [apply max_len_u64|apply u64_le_max; exact U].
        -- destruct (Hlen _ _ eq_refl) as [_ B]. apply all_here in B. destruct B as [B _]. cbn in B.
           destruct (prefix_max_ok p B) as [U' L']. split; [exact U'|]. pose proof (int_min_len p B). cbn [min_length]. lia.
    + split; [apply to_u64_u64|]. intros m E. apply bind_Ok in E as (ex & Hex & E). apply bind_Ok in E as (em & Hem & E).
      apply Me in Hex as [Uex Lex]. apply Mg in Hem as [Uem Lem].
      apply bind_Ok in E as (x & Hx & E). apply bind_Ok in E as (y & Hy & E). injection E as <-.
      destruct (mul_len_sat _ _ _ Uem Hu Hy) as (_ & -> & Uy).
      set (xm := if l_elemFixedLength s then me else to_u64 (me * l_count s)).
      assert (Ux : u64 x /\ xm <= x /\ u64 xm).
      { subst xm. destruct (l_elemFixedLength s); [injection Hx as <-; auto|].
        destruct (mul_len_sat _ _ _ Uex Hu Hx) as (_ & -> & Y). split; [exact Y|]. split; [|apply to_u64_u64].
        pose proof (to_u64_u64 (me * l_count s)). assert (0 <= me * l_count s) by (unfold u64 in *; nia).
        pose proof (to_u64_le (me * l_count s)). assert (me * l_count s <= ex * l_count s) by (unfold u64 in *; nia).
        unfold sat, u64, two64 in *. lia. }
      destruct Ux as (Ux & Lx & Uxm). destruct (add_len_sat _ _ Uy Ux) as [E1 U1]. rewrite E1. split; [exact U1|].
      pose proof (to_u64_u64 (l_count s * min_length g)) as Ua. assert (0 <= l_count s * min_length g) by (unfold u64 in *; nia).
      pose proof (to_u64_le (l_count s * min_length g)). assert (l_count s * min_length g <= em * l_count s) by (unfold u64 in *; nia).
      pose proof (to_u64_u64 (to_u64 (l_count s * min_length g) + xm)).
      pose proof (to_u64_le (to_u64 (l_count s * min_length g) + xm)). unfold sat, u64, two64 in *. lia.
  - destruct (HP f (or_introl eq_refl)) as [X _]. exact X.
  - destruct (HP f (or_introl eq_refl)) as [[_ X] _]. split; [cbn; unfold u64, two64; lia|]. intros m E. apply X in E as [U L].
    split; [exact U|]. unfold u64 in U. cbn. lia.
  - assert (F : Forall lens_ok ms) by (apply Forall_forall; intros g Hg; apply HP; exact Hg).
    split; [cbn; unfold u64, two64; lia|]. intros m E. rewrite max_variant in E.
    apply variant_max_le in E as [Um Lm]; [|exact F|unfold u64, two64; lia]. split; [exact Um|]. cbn. exact Lm.
Qed.

(** ** every serialisation is within the reported lengths *)
Section Bounds.
(** the lower bound only holds of plain fields *)
Variable low : Prop.
Definition within (f : field) (n : Z) : Prop :=
  (low -> min_length f <= n) /\ forall m, max_length f = Ok m -> n <= m \/ m = max_len.
Definition bounds_ok (f : field) : Prop := forall n, takes f n -> 0 <= n /\ within f n.
Definition shape_takes (f : field) (n : Z) : Prop :=
  match f with
  | FInt _ s => ~ variable_type (i_type s) /\ n = i_length s \/ variable_type (i_type s) /\ 1 <= n <= i_length s
  | FEnum _ s => ~ variable_type (en_type s) /\ n = en_length s \/ variable_type (en_type s) /\ 1 <= n <= en_length s
  | FSet _ s => n = s_length s
  | FFloat _ s => n = float_bytes (f_type s)
  | FBitfield _ _ ms _ => n = total (map bits_of ms) / 8
  | FBundle _ ms _ _ => exists ns, Forall2 takes ms ns /\ n = total ns
  | FString _ s pre => payload_takes (st_length s) (st_zeroSuffix s) pre n
  | FData _ s pre => payload_takes (d_length s) false pre n
  | FList _ s el a b d t =>
      l_count s <> 0 /\ elements_take s el d (l_count s) n \/
      l_count s = 0 /\ ((exists o p k j n', a = Some (o, p) /\ takes p k /\ prefix_holds p j /\ elements_take s el d j n' /\ n = k + n') \/
        a = None /\ ((exists o p k n', b = Some (o, p) /\ takes p k /\ prefix_holds p n' /\ n = k + n') \/
        b = None /\ exists k j n', (t = None /\ k = 0 \/ exists o p, t = Some (o, p) /\ takes p k) /\ elements_take s el d j n' /\ n = k + n'))
  | FRef _ _ t => takes t n
  | FOptional _ _ _ g _ => n = 0 \/ takes g n
  | FVariant _ _ ms => n = 0 \/ exists m, In m ms /\ takes m n
  end.
Lemma takes_cases f n : takes f n -> n = 0 /\ c_pseudo (f_common f) = true \/
  exists n', shape_takes f n' /\ (n = n' \/ has_available_limit f /\ 1 <= n <= n').
Proof.
  intros H. induction H as [f P|f n k A H IH K| | | | | | | | | | | | | | | | | | | |]; [left; auto| |..];
    try (right; eexists; split; [|left; reflexivity]; cbn; eauto 20; fail).
  right. destruct IH as [[-> _]|(n' & S & D)]; [lia|]. exists n'. split; [exact S|]. right. split; [exact A|].
  destruct D as [->|[_ D]]; lia.
Qed.
Lemma holds_limit s n : int_reachable s -> (exists hi, stands_for (i_type s) (i_max s) hi /\ n <= hi) -> 0 <= n -> n <= to_u64 (i_max s).
Proof.
  intros H (hi & S & L) N. apply int_reachable_inv in H. pose proof (inv_limits _ H) as X.
  destruct (int_min_max_64 _ _ _ _ _ _ _ _ (inv_bits _ H) X) as [_ [_ Y]]. unfold int_max in Y.
  unfold to_u64, two64. unfold stands_for in S. destruct (i_type s); subst hi; try (change (2 ^ 64) with 18446744073709551616 in L); lia.
Qed.
Local Ltac lo := let Hl := fresh in intros Hl; repeat match goal with X : low -> _ |- _ => specialize (X Hl) end; lia.
Lemma total_bounds g ns : bounds_ok g -> Forall (takes g) ns ->
  0 <= total ns /\ (low -> Z.of_nat (length ns) * min_length g <= total ns) /\
  forall em, max_length g = Ok em -> u64 em -> total ns <= Z.of_nat (length ns) * em \/ em = max_len /\ (0 < length ns)%nat.
Proof.
  intros B. induction 1 as [|n ns H F (IH1 & IH2 & IH3)]; cbn [total length].
  - split; [lia|]. split; [lo|]. intros. left. lia.
  - destruct (B _ H) as [N [W1 W2]]. split; [lia|]. split; [lo|]. intros em E U. destruct (W2 _ E) as [X|X]; [|right; split; [exact X|lia]].
    destruct (IH3 _ E U) as [Y|Y]; [left; lia|right; split; [apply Y|lia]].
Qed.
Definition sub_min (d : option (bool * field)) : Z := match d with Some (_, p) => min_length p | None => 0 end.
Definition sub_max (d : option (bool * field)) : res Z := match d with Some (_, p) => x <- max_length p ;; Ok (add_len x 0) | None => Ok 0 end.
Lemma add0 x : u64 x -> add_len x 0 = x.
Proof. intros U. assert (Z0 : u64 0) by (unfold u64, two64; lia). destruct (add_len_sat x 0 U Z0) as [-> _]. unfold sat, u64, two64 in *. lia. Qed.
Lemma elements_bounds s o g d j n : elements_take s (o, g) d j n -> bounds_ok g ->
  (forall b p, d = Some (b, p) -> bounds_ok p /\ lens_ok p) ->
  0 <= j /\ 0 <= n /\ (low -> j * min_length g + (if l_elemFixedLength s then sub_min d else j * sub_min d) <= n) /\
  forall em ex, max_length g = Ok em -> u64 em -> sub_max d = Ok ex ->
    n <= j * em + (if l_elemFixedLength s then ex else j * ex) \/ em = max_len /\ 0 < j \/
    ex = max_len /\ (l_elemFixedLength s = true \/ 0 < j).
Proof.
  intros H B Hd. inversion H; subst.
  - match goal with X : Forall (takes g) _ |- _ => destruct (total_bounds _ _ B X) as (T1 & T2 & T3) end.
    split; [lia|]. split; [exact T1|]. cbn [sub_min sub_max]. split; [destruct (l_elemFixedLength s); lo|].
    intros em ex E U Ex. injection Ex as <-. destruct (T3 _ E U) as [X|[X Y]]; [left; destruct (l_elemFixedLength s); lia|right; left; split; [exact X|lia]].
  - destruct (Hd _ _ eq_refl) as [Bp [Up Lp]].
    match goal with X : Forall (takes g) _ |- _ => destruct (total_bounds _ _ B X) as (T1 & T2 & T3) end.
    match goal with X : Forall (takes p) _ |- _ => destruct (total_bounds _ _ Bp X) as (S1 & S2 & S3) end.
    match goal with X : l_elemFixedLength s = false |- _ => rewrite X in * end.
    split; [lia|]. split; [lia|]. cbn [sub_min sub_max]. split; [lo|].
    intros em ex E U Ex. apply bind_Ok in Ex as (x & Ex & E'). injection E' as <-. destruct (Lp _ Ex) as [Ux _]. rewrite (add0 _ Ux).
    destruct (T3 _ E U) as [X|[X Y]]; [|right; left; split; [exact X|lia]].
    destruct (S3 _ Ex Ux) as [X'|[X' Y']]; [left; lia|right; right; split; [exact X'|right; lia]].
  - destruct (Hd _ _ eq_refl) as [Bp [Up Lp]].
    match goal with X : Forall (takes g) _ |- _ => destruct (total_bounds _ _ B X) as (T1 & T2 & T3) end.
    match goal with X : takes p _ |- _ => destruct (Bp _ X) as (S1 & S2 & S3) end.
    match goal with X : l_elemFixedLength s = true |- _ => rewrite X in * end.
    split; [lia|]. split; [lia|]. cbn [sub_min sub_max]. split; [lo|].
    intros em ex E U Ex. apply bind_Ok in Ex as (x & Ex & E'). injection E' as <-. destruct (Lp _ Ex) as [Ux _]. rewrite (add0 _ Ux).
    destruct (T3 _ E U) as [X|[X Y]]; [|right; left; split; [exact X|lia]].
    destruct (S3 _ Ex) as [X'|X']; [left; lia|right; right; split; [exact X'|left; reflexivity]].
Qed.
(** a saturated sum or product *)
Lemma sat_add a b n1 n2 : u64 a -> u64 b -> n1 <= a \/ a = max_len -> n2 <= b \/ b = max_len ->
  n1 + n2 <= add_len a b \/ add_len a b = max_len.
Proof.
  intros A B H1 H2. destruct (add_len_sat _ _ A B) as [-> U]. unfold sat, max_len, uint_max, u64, two64 in *. lia.
Qed.
Lemma sat_mul a b m n : u64 a -> u64 b -> mul_len a b = Ok m -> n <= a * b \/ a = max_len -> n <= m \/ m = max_len.
Proof.
  intros A B H1 H2. destruct (mul_len_sat _ _ _ A B H1) as (P & -> & U).
  destruct H2 as [H2 | ->]; unfold sat, max_len, uint_max, u64, two64 in *; [lia|]. right. nia.
Qed.
Lemma bundle_max_takes ms : Forall (fun f => lens_ok f /\ bounds_ok f) ms -> forall ns s m, u64 s -> Forall2 takes ms ns ->
  bundle_max ms s = Ok m -> s + total ns <= m \/ m = max_len.
Proof.
  induction 1 as [|f ms [[M1 M2] B] F IH]; intros ns s m Hs Ht H; cbn [bundle_max] in H; inversion Ht; subst.
  - injection H as <-. cbn. lia.
  - destruct (is_length_sem f); [injection H as <-; auto|].
    apply bind_Ok in H as (x & Hx & H). destruct (M2 _ Hx) as [Ux Lx].
    match goal with X : takes f _ |- _ => destruct (B _ X) as [N [W1 W2]] end. specialize (W2 _ Hx).
    destruct (add_len_sat _ _ Ux Hs) as [E U]. rewrite E in H.
    assert (Um : u64 m /\ sat (x + s) <= m).
    { apply bundle_max_le in H; [|eapply Forall_impl; [|exact F]; cbn; tauto|exact U]. destruct H as [J1 J2]. split; [exact J1|].
      assert (0 <= total (map min_length ms)) by (apply total_nonneg, min_nonneg; eapply Forall_impl; [|exact F]; cbn; tauto).
      unfold sat, u64, two64 in *. lia. }
    match goal with X : Forall2 takes ms _ |- _ => specialize (IH _ _ _ U X H) end.
    cbn [total]. unfold sat, max_len, uint_max, u64, two64 in *. lia.
Qed.
Lemma bundle_min_takes ms : Forall bounds_ok ms -> forall ns, Forall2 takes ms ns -> 0 <= total ns /\ (low -> total (map min_length ms) <= total ns).
Proof.
  induction 1 as [|f ms B F IH]; intros ns Ht; inversion Ht; subst; cbn; [split; [lia|lo]|].
  match goal with X : takes f _ |- _ => destruct (B _ X) as [N [W1 _]] end.
  match goal with X : Forall2 takes ms _ |- _ => destruct (IH _ X) end. split; [lia|lo].
Qed.
Lemma variant_max_takes ms : Forall (fun f => lens_ok f /\ bounds_ok f) ms -> forall s m, u64 s -> variant_max ms s = Ok m ->
  s <= m /\ u64 m /\ (forall g n, In g ms -> takes g n -> n <= m \/ m = max_len).
Proof.
  induction 1 as [|f ms [[M1 M2] B] F IH]; intros s m Hs H; cbn [variant_max] in H.
  - injection H as <-. split; [lia|]. split; [exact Hs|]. intros g n [].
  - apply bind_Ok in H as (x & Hx & H). destruct (M2 _ Hx) as [Ux Lx]. destruct (Z.eqb_spec x max_len) as [E|N].
    + injection H as <-. split; [rewrite E; apply u64_le_max; exact Hs|]. split; [exact Ux|]. intros g n _ _. right. exact E.
    + apply IH in H as (H1 & H2 & H3); [|unfold u64 in *; lia]. split; [lia|]. split; [exact H2|].
      intros g n [<-|Hg] Ht; [|eapply H3; eassumption].
      destruct (B _ Ht) as [_ [_ W2]]. destruct (W2 _ Hx) as [Y|Y]; [left; lia|contradiction].
Qed.
Lemma prefix_max_takes c p k n : all base_ok (FInt c p) -> bounds_ok (FInt c p) -> takes (FInt c p) k -> prefix_holds (FInt c p) n ->
  k + n <= add_len (to_u64 (i_max p)) (i_length p) \/ add_len (to_u64 (i_max p)) (i_length p) = max_len.
Proof.
  intros Ba Bo Tk [N Hn]. cbn in Hn. apply all_here in Ba. destruct Ba as [Ba _]. cbn in Ba.
  pose proof (holds_limit _ _ Ba Hn N) as L. destruct (Bo _ Tk) as [_ [_ W]]. specialize (W _ eq_refl).
  pose proof (int_len _ Ba) as I. rewrite Z.add_comm. apply sat_add; [apply to_u64_u64|unfold u64, two64; lia|left; exact L|exact W].
Qed.
(** ** what the bounds need of strings and bitfields *)
Definition shaped (f : field) : Prop :=
  match f with
  | FString _ s pre => st_zeroSuffix s = true -> pre = None
  | FBitfield _ _ ms _ => Forall (fun m => c_inBitfield (f_common m) = true) ms
  | _ => True
  end.
Lemma field_parse_ctx fuel e x n f : field_parse fuel e x n = Ok f -> c_inBitfield (f_common f) = in_bitfield x.
Proof.
  destruct fuel as [|fuel]; [discriminate|]. cbn [field_parse]. intros H.
  apply bind_Ok in H as (k & Hk & H). apply bind_Ok in H as (p & Hp & H). apply bind_Ok in H as ([c0 old] & Hr & H).
  apply bind_Ok in H as (repl & Hrep & H). apply bind_Ok in H as (c & Hc & H).
  apply bind_Ok in H as (f' & Hkp & H). apply bind_Ok in H as ([] & Hv & H). injection H as ->.
  apply kind_parse_common in Hkp as (_ & _ & _ & _ & -> & _).
  assert (E : c_inBitfield c = c_inBitfield c0).
  { unfold update_common in Hc. inv_all. reflexivity. }
  rewrite E. clear - Hr. unfold check_reuse in Hr. inv_ok. destruct (find_prop p (L "reuse")); inv_ok; subst; reflexivity.
Qed.
Lemma accepted_shaped f : accepted f -> all shaped f.
Proof.
  apply accepted_all.
  - intros g H. apply all_here in H. destruct g; cbn in *; try exact I.
    + apply Forall_map. eapply Forall_impl; [|exact H]. cbn. intros m. rewrite clone_common. auto.
    + intros Z1. rewrite (H Z1). reflexivity.
  - intros v g H. apply all_here in H. destruct g; exact H.
  - intros fuel e x n k p c0 old repl c f0 He Hf0 _ _ _ Hr Hold Hrep _ _ Hkp _ _.
    pose proof (reuse_old_ok _ _ _ _ _ _ Hr) as Ho.
    pose proof (kind_parse_common _ _ _ _ _ _ _ _ _ _ _ Hkp) as (K & _).
    destruct k; try (destruct f0; try discriminate K; exact I); clear K.
    + apply bitfield_inv in Hkp as (en & ms & vc & ms0 & -> & H1 & H2 & _); [|exact Ho]. cbn.
      assert (M : forall v g, c_inBitfield (f_common g) = true -> c_inBitfield (f_common (bump_since v g)) = true).
      { intros v g Hg. unfold bump_since. rewrite map_common_common. exact Hg. }
      assert (R : forall m g, field_parse fuel e (mkCtx (PField KBitfield) (c_since c) (c_deprecated c)) m = Ok g -> c_inBitfield (f_common g) = true).
      { intros m g X. apply field_parse_ctx in X. exact X. }
      assert (M0 : Forall (fun m => c_inBitfield (f_common m) = true) ms0).
      { eapply (replace_members_parts); [| |exact H1].
        - apply Forall_map. destruct old as [o|]; [|constructor]. specialize (Ho o eq_refl). specialize (Hold o eq_refl). apply all_here in Hold.
          destruct o; try discriminate Ho. cbn in *. eapply Forall_impl; [|exact Hold]. cbn. intros m. rewrite clone_common. auto.
        - intros fs ->. unfold replacements in Hrep. destruct (parseGetChildrenNamed n (L "replace")) as [|m [|]]; try discriminate.
          destruct (negb (member_replace_supported e)); [discriminate|]. inv_ok. subst.
          apply Forall_forall. intros g Hg. eapply mapM_In in Hg as (a & _ & E); [|eassumption].
          apply field_parse_ctx in E. exact E. }
      unfold bitfield_members in H2. apply bind_Ok in H2 as (ns & _ & H2). destruct ns as [ns|]; inv_ok.
      * apply Forall_forall. intros g Hg. eapply mapM_In in Hg as (a & _ & E); [|eassumption].
        cbv beta in E. inv_ok. subst. eapply R; eassumption.
      * apply Forall_map. eapply Forall_impl; [|exact M0]. intros g. apply M.
    + unfold kind_parse in Hkp. apply bind_Ok in Hkp as (u & _ & H). unfold string_parse in H.
      match type of H with (let (_, _) := ?t in _) = _ => destruct t as [s0 pre0] end.
      inv_all. cbn. intros Z1.
      match goal with H : update_zero_term _ _ _ _ = Ok _ |- _ => unfold update_zero_term in H; inv_ok end.
      destruct (snd _) as [q|] eqn:Eq in |- *; [|reflexivity]. exfalso.
      repeat match goal with H : guard _ = Ok _ |- _ => apply guard_Ok in H end.
      unfold has_field in *. rewrite Eq in *. cbn [negb orb] in *.
      repeat match goal with H : _ && _ = true |- _ => apply andb_true_iff in H as [? ?] end.
      match goal with H : negb (st_zeroSuffix s0) = true |- _ => apply negb_true_iff in H; rewrite H in * end.
      destruct (find_prop p (L "zeroTermSuffix")); [|inv_ok; congruence].
      match goal with H : bind (of_opt (parseStrToBool _)) _ = Ok _ |- _ => apply bind_Ok in H as ([|] & _ & H); cbn in H; [|congruence];
        apply bind_Ok in H as (? & H & _); rewrite andb_false_r in H; discriminate H end.
Qed.
Definition total_ok (f : field) : Prop := base_ok f /\ shaped f.
Lemma payload_bounds (len : Z) (z : bool) (pre : option (bool * field)) n :
  u32 len -> (forall b g, pre = Some (b, g) -> lens_ok g /\ all base_ok g /\ bounds_ok g) -> (z = true -> pre = None) -> payload_takes len z pre n ->
  let mn := if negb (len =? 0) then len else if z then 1 else match pre with Some (_, p) => min_length p | None => 0 end in
  let mx := if negb (len =? 0) then Ok len else match pre with Some (_, FInt _ p) => Ok (add_len (to_u64 (i_max p)) (i_length p)) | _ => Ok max_len end in
  0 <= n /\ (low -> mn <= n) /\ forall m, mx = Ok m -> n <= m \/ m = max_len.
Proof.
  intros Hl Hp Hz H. inversion H; subst; cbn [Z.eqb negb]; cbv zeta.
  - destruct (Z.eqb_spec n 0); [contradiction|]. cbn [negb]. unfold u32 in Hl. split; [lia|]. split; [lo|]. intros m E. injection E as <-. lia.
  - rewrite Hz by reflexivity. split; [lia|]. split; [lo|]. intros m E. injection E as <-. auto.
  - destruct (Hp _ _ eq_refl) as (Lp & Ap & Bp).
    match goal with X : takes p _ |- _ => destruct (Bp _ X) as [K [W1 W2]] end.
    match goal with X : prefix_holds p _ |- _ => pose proof (proj1 X) as N0 end.
    split; [lia|]. split; [lo|].
    intros m E. destruct p; try (injection E as <-; auto; fail). injection E as <-. eapply prefix_max_takes; eassumption.
  - split; [lia|]. split; [lo|]. intros m E. injection E as <-. auto.
Qed.

Lemma plain_part f g : plain f -> In g (parts f) -> plain g.
Proof. intros H Hg h Hh. apply H. eapply part_of_trans; [exact Hh|apply part_of_parts; exact Hg]. Qed.
Lemma sane_part f g : sane_bitfields f -> In g (parts f) -> sane_bitfields g.
Proof. intros H Hg c e ms v Hh. eapply H. eapply part_of_trans; [exact Hh|apply part_of_parts; exact Hg]. Qed.
Lemma bits_eq ms : Forall (fun m => c_inBitfield (f_common m) = true) ms -> map bit_length ms = map bits_of ms.
Proof. induction 1 as [|m ms H F IH]; [reflexivity|]. cbn [map]. rewrite IH. f_equal. unfold bit_length. rewrite H. destruct m; reflexivity. Qed.
Theorem takes_bounds f : all total_ok f -> (low -> plain f) -> sane_bitfields f -> bounds_ok f.
Proof.
  induction f as [f IH] using field_ind'. intros H Pl Sa. pose proof (all_here _ _ H) as [Hf Hs].
  assert (HP : forall g, In g (parts f) -> lens_ok g /\ all base_ok g /\ bounds_ok g).
  { intros g Hg. rewrite Forall_forall in IH. assert (A : all total_ok g) by (eapply all_parts; eassumption).
    assert (A' : all base_ok g) by (eapply all_impl; [|exact A]; cbn; unfold total_ok; tauto).
    split; [apply lengths_ok; exact A'|]. split; [exact A'|]. apply IH; auto; [intros Hl; eapply plain_part; eauto|eapply sane_part; eassumption]. }
  assert (LO : lens_ok f) by (apply lengths_ok; eapply all_impl; [|exact H]; cbn; unfold total_ok; tauto).
  intros n Ht. apply takes_cases in Ht as [[-> Pp]|(n' & Ht & Hn)].
  { split; [lia|]. split.
    - intros Hl. destruct (Pl Hl f (part_self f)) as [X _]. congruence.
    - intros m E. apply LO in E as [[U _] _]. auto. }
  enough (G : 0 <= n' /\ within f n').
  { destruct G as [G0 [G1 G2]]. destruct Hn as [->|[Ha Hn]]; [exact (conj G0 (conj G1 G2))|]. split; [lia|]. split.
    - intros Hl. destruct (Pl Hl f (part_self f)) as [_ X]. contradiction.
    - intros m E. destruct (G2 m E); [left; lia|auto]. }
  clear n Hn LO. rename n' into n. unfold within.
  destruct f; cbn [parts shape_takes] in *.
  - destruct Hf as [Hf _]. cbn in Hf. apply int_len in Hf. cbn [min_length max_length].
    destruct Ht as [[V ->]|[V L]]; rewrite <- is_var_spec in V; destruct (is_var (i_type s));
      try congruence; (split; [lia|split; [lia|]]); intros m E; injection E as <-; lia.
  - destruct Hf as [Hf _]. cbn in Hf. apply enum_len in Hf. cbn [min_length max_length].
    destruct Ht as [[V ->]|[V L]]; rewrite <- is_var_spec in V; destruct (is_var (en_type s));
      try congruence; (split; [lia|split; [lia|]]); intros m E; injection E as <-; lia.
  - destruct Hf as [Hf _]. cbn in Hf. apply set_len in Hf. cbn [min_length max_length]. subst n.
    split; [lia|split; [lia|]]; intros m E; injection E as <-; lia.
  - destruct Hf as [_ Hf]. cbn in Hf. cbn [min_length max_length]. subst n. rewrite Hf.
    split; [destruct (f_type s); cbn; lia|split; [lia|]]; intros m E; injection E as <-; lia.
  - cbn in Hs. pose proof (Sa _ _ _ _ (part_self _)) as T. pose proof (bits_nonneg ms (fun g X => proj1 (proj2 (HP g X)))) as N.
    cbn [min_length max_length]. rewrite (sum_u64_spec _ N). rewrite (bits_eq _ Hs) in *. pose proof (total_nonneg _ N) as T0.
    change two64 with (2 ^ 64). rewrite Z.mod_small by lia. subst n.
    split; [apply Z.div_pos; lia|split; [lia|]]; intros m E; injection E as <-; lia.
  - destruct Ht as (ns & F2 & ->). assert (F : Forall (fun g => lens_ok g /\ bounds_ok g) ms).
    { apply Forall_forall. intros g Hg. destruct (HP g Hg) as (A & _ & B). auto. }
    assert (Fb : Forall bounds_ok ms) by (eapply Forall_impl; [|exact F]; cbn; tauto).
    assert (Fl : Forall lens_ok ms) by (eapply Forall_impl; [|exact F]; cbn; tauto).
    destruct (bundle_min_takes _ Fb _ F2) as [T0 T1]. split; [exact T0|]. split.
    + cbn [min_length]. destruct (sum_u64_bounds _ (min_nonneg _ Fl)) as [_ Le]. lia.
    + intros m E. rewrite max_bundle in E. eapply bundle_max_takes in E; [|exact F| |exact F2]; [exact E|unfold u64, two64; lia].
  - destruct Hf as [_ Hf]. cbn in Hf, Hs. cbn [min_length max_length]. apply (payload_bounds _ _ pre); [exact Hf| |exact Hs|exact Ht].
    intros b g ->. apply HP. left; reflexivity.
  - destruct Hf as [_ Hf]. cbn in Hf. cbn [min_length max_length]. apply (payload_bounds _ false pre); [exact Hf| |discriminate|exact Ht].
    intros b g ->. apply HP. left; reflexivity.
  - destruct Hf as [_ Hf]. cbn in Hf. destruct elem as [o g]. cbn [snd] in *.
    destruct (HP g (or_introl eq_refl)) as ([Ug Mg] & _ & Bg).
    assert (Hin : forall y, y = cnt \/ y = len \/ y = elemLen \/ y = term -> forall b h, y = Some (b, h) -> lens_ok h /\ all base_ok h /\ bounds_ok h).
    { intros y Hy b h ->. apply HP. right. repeat rewrite in_app_iff.
      destruct Hy as [<-|[<-|[<-|<-]]]; cbn; tauto. }
    assert (Hd : forall b p, elemLen = Some (b, p) -> bounds_ok p /\ lens_ok p).
    { intros b p E. destruct (Hin elemLen ltac:(auto) _ _ E) as (A & _ & B). auto. }
    assert (Us : u64 (sub_min elemLen) /\ forall m, sub_max elemLen = Ok m -> u64 m).
    { unfold sub_min, sub_max. destruct elemLen as [[b h]|]; [|split; [unfold u64, two64; lia|intros m E; injection E as <-; unfold u64, two64; lia]].
      destruct (Hd _ _ eq_refl) as [_ [U M]]. split; [exact U|]. intros m E. apply bind_Ok in E as (x & Hx & E). injection E as <-.
      apply M in Hx as [Ux _]. rewrite add0; exact Ux. }
    destruct Us as [Ue Me].
    assert (Hu : u64 (l_count s)) by (unfold u32, u64, two32, two64 in *; lia).
    destruct Ht as [[N0 He]|[E0 Ht]].
    + destruct (elements_bounds _ _ _ _ _ _ He Bg Hd) as (J & N & Lo & Hi). split; [exact N|]. cbn [min_length max_length snd].
      destruct (Z.eqb_spec (l_count s) 0) as [E0|_]; [contradiction|]. cbn [negb]. cbv zeta. fold (sub_min elemLen). fold (sub_max elemLen).
      split.
      * assert (0 <= l_count s * min_length g) by (unfold u64 in *; nia). assert (0 <= l_count s * sub_min elemLen) by (unfold u64 in *; nia).
        pose proof (to_u64_u64 (l_count s * min_length g)) as Ua. pose proof (to_u64_le (l_count s * min_length g)).
        pose proof (to_u64_u64 (sub_min elemLen * l_count s)) as Ub. pose proof (to_u64_le (sub_min elemLen * l_count s)).
        set (xm := if l_elemFixedLength s then sub_min elemLen else to_u64 (sub_min elemLen * l_count s)) in *.
        assert (0 <= xm /\ xm <= if l_elemFixedLength s then sub_min elemLen else l_count s * sub_min elemLen)
          by (subst xm; unfold u64 in *; destruct (l_elemFixedLength s); lia).
        pose proof (to_u64_le (to_u64 (l_count s * min_length g) + xm)). unfold u64 in *. lia.
      * intros m E. apply bind_Ok in E as (ex & Hex & E). apply bind_Ok in E as (em & Hem & E).
        apply bind_Ok in E as (x & Hx & E). apply bind_Ok in E as (y & Hy & E). injection E as <-.
        pose proof (Me _ Hex) as Uex. destruct (Mg _ Hem) as [Uem _]. specialize (Hi _ _ Hem Uem Hex).
        destruct (mul_len_sat _ _ _ Uem Hu Hy) as (_ & -> & Uy).
        assert (X : u64 x /\ x = sat (if l_elemFixedLength s then ex else ex * l_count s)).
        { destruct (l_elemFixedLength s); [injection Hx as <-; split; [exact Uex|unfold sat, u64 in *; lia]|].
          destruct (mul_len_sat _ _ _ Uex Hu Hx) as (_ & -> & Y). auto. }
        destruct X as [Ux ->]. destruct (add_len_sat _ _ Uy Ux) as [-> _].
        assert (0 <= em * l_count s) by (unfold u64 in *; nia). assert (0 <= ex * l_count s) by (unfold u64 in *; nia).
        destruct Hi as [Hi|[[-> Hi]|[-> Hi]]].
        -- unfold sat, max_len, uint_max, u64, two64 in *. destruct (l_elemFixedLength s); lia.
        -- right. assert (max_len <= max_len * l_count s) by (unfold u64, max_len, uint_max in *; nia).
           unfold sat, u64, max_len, uint_max, two64 in *. destruct (l_elemFixedLength s); lia.
        -- right. assert (max_len <= max_len * l_count s) by (unfold u64, max_len, uint_max in *; nia).
           unfold sat, u64, max_len, uint_max, two64 in *. destruct (l_elemFixedLength s); lia.
    + cbn [min_length max_length snd]. rewrite E0. cbn [Z.eqb negb]. fold (sub_max elemLen).
      destruct Ht as [(o' & p & k & j & n' & -> & Tk & Hj & He & ->)|[-> Ht]].
      * destruct (Hin (Some (o', p)) ltac:(auto) _ _ eq_refl) as (Lp & Ap & Bp). destruct (Bp _ Tk) as [K [W1 W2]].
        destruct (elements_bounds _ _ _ _ _ _ He Bg Hd) as (J & N & Lo & Hi). split; [lia|]. split; [lia|].
        intros m E. apply bind_Ok in E as (ex & Hex & E). apply bind_Ok in E as (em & Hem & E).
        pose proof (Me _ Hex) as Uex. destruct (Mg _ Hem) as [Uem _]. specialize (Hi _ _ Hem Uem Hex).
        destruct p as [c0 p| | | | | | | | | | |]; try discriminate E.
        apply bind_Ok in E as (r & Hr & E). apply bind_Ok in E as (x & Hx & E). injection E as <-.
        apply all_here in Ap. destruct Ap as [Ap _]. cbn in Ap.
        destruct Hj as [_ Hj]. cbn in Hj. pose proof (holds_limit _ _ Ap Hj J) as Lj. specialize (W2 _ eq_refl). apply int_len in Ap.
        pose proof (to_u64_u64 (i_max p)) as Uc. set (C := to_u64 (i_max p)) in *.
        destruct (mul_len_sat _ _ _ Uem Uc Hr) as (C0 & -> & Ur).
        assert (Up : u64 (i_length p)) by (unfold u64, two64; lia).
        destruct (add_len_sat _ _ Up Ur) as [E1 U1]. rewrite E1.
        assert (X : u64 x /\ x = sat (if l_elemFixedLength s then ex else ex * C)).
        { destruct (l_elemFixedLength s); [injection Hx as <-; split; [exact Uex|unfold sat, u64 in *; lia]|].
          destruct (mul_len_sat _ _ _ Uex Uc Hx) as (_ & -> & Y). auto. }
        destruct X as [Ux ->]. destruct (add_len_sat _ _ Ux U1) as [-> _].
        assert (0 <= em * C) by (unfold u64 in *; nia). assert (0 <= ex * C) by (unfold u64 in *; nia).
        assert (j * em <= em * C) by (unfold u64 in *; nia). assert (j * ex <= ex * C) by (unfold u64 in *; nia).
        destruct Hi as [Hi|[[-> Hi]|[-> Hi]]].
        -- unfold sat, max_len, uint_max, u64, two64 in *. destruct (l_elemFixedLength s); lia.
        -- right. assert (max_len <= max_len * C) by (unfold u64, max_len, uint_max in *; nia).
           unfold sat, u64, max_len, uint_max, two64 in *. destruct (l_elemFixedLength s); lia.
        -- right. assert (max_len <= max_len * C) by (unfold u64, max_len, uint_max in *; nia).
           unfold sat, u64, max_len, uint_max, two64 in *. destruct (l_elemFixedLength s); lia.
      * destruct Ht as [(o' & p & k & n' & -> & Tk & Hj & ->)|[-> (k & j & n' & Hk & He & ->)]].
        -- destruct (Hin (Some (o', p)) ltac:(auto) _ _ eq_refl) as (Lp & Ap & Bp). destruct (Bp _ Tk) as [K [W1 W2]].
           pose proof (proj1 Hj) as N0. split; [lia|]. split; [lia|].
           intros m E. apply bind_Ok in E as (ex & Hex & E). apply bind_Ok in E as (em & Hem & E).
           destruct p; try (injection E as <-; auto; fail). injection E as <-. eapply prefix_max_takes; eassumption.
        -- destruct (elements_bounds _ _ _ _ _ _ He Bg Hd) as (J & N & _ & _).
           assert (X : 0 <= k /\ (low -> match term with Some (_, p) => min_length p | None => 0 end <= k)).
           { destruct Hk as [[-> ->]|(o' & p & -> & Tk)]; [lia|]. destruct (Hin (Some (o', p)) ltac:(auto) _ _ eq_refl) as (Lp & Ap & Bp).
             destruct (Bp _ Tk) as [K [W1 _]]. auto. }
           destruct X as [X0 X1]. split; [lia|]. split; [lo|]. intros m E. apply bind_Ok in E as (ex & Hex & E). apply bind_Ok in E as (em & Hem & E).
           injection E as <-. auto.
  - destruct (HP f (or_introl eq_refl)) as (_ & _ & B). destruct (B _ Ht) as [N W]. exact (conj N W).
  - destruct (HP f (or_introl eq_refl)) as ([[U0 _] L] & _ & B). cbn [min_length max_length].
    destruct Ht as [->|Ht]; [|destruct (B _ Ht) as [N [W1 W2]]; split; [exact N|split; [intros _; exact N|exact W2]]].
    split; [lia|split; [lia|]]. intros m E. apply L in E as [[U _] _]. auto.
  - assert (F : Forall (fun g => lens_ok g /\ bounds_ok g) ms).
    { apply Forall_forall. intros g Hg. destruct (HP g Hg) as (A & _ & B). auto. }
    assert (N : 0 <= n). { destruct Ht as [->|(g & Hg & Ht)]; [lia|]. destruct (HP g Hg) as (_ & _ & B). apply B. exact Ht. }
    cbn [min_length]. split; [exact N|split; [intros _; exact N|]]. intros m E. rewrite max_variant in E.
    apply (variant_max_takes _ F) in E as (A1 & A2 & A3); [|unfold u64, two64; lia].
    destruct Ht as [->|(g & Hg & Ht)]; [left; exact A1|eapply A3; eassumption].
Qed.
End Bounds.
Lemma accepted_total f : accepted f -> all total_ok f.
Proof. intros H. apply all_and; [apply accepted_base; exact H|apply accepted_shaped; exact H]. Qed.
Lemma part_total f g : accepted f -> part_of g f -> all total_ok g.
Proof. intros H P. apply accepted_total in H. induction P; [exact H|]. apply IHP. eapply all_parts; eassumption. Qed.
