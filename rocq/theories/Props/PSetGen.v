(** C62: options of generated set fields: length, default value, reserved bits. *)
From Coq Require Import Lia Sorted Permutation ZifyBool ZifyNat.
From Verif.Model Require Import Base Common Xml Units Field FieldCommon IntField SetField GenUtil GenComms CommsInt CommsSet.
From Verif.Spec Require Import Texts Ints Versions IntSpec EnumSpec GenSpec NameSpec CppSpec SetCode.
From Verif.Proofs Require Import BaseFacts CommonFacts IntFacts RangeFacts EnumInv GenFacts CommsIntFacts CommsOptFacts SetFacts.
From Verif.Props Require Import PTexts PInt PEnum PGen PComms.
Local Open Scope string_scope. Local Open Scope Z_scope. Local Open Scope list_scope.

Lemma set_opts_In ge x c s y : In y (set_def_opts ge x c s) <->
  (y = copt (L "AvailableLengthLimit") /\ s_availableLengthLimit s = true) \/ In y (comms_def_options x c) \/ In y (set_length_opts c s) \/
  In y (set_default_opts c s) \/ In y (set_reserved_opts ge c s).
Proof. unfold set_def_opts. rewrite in_add_if, !in_app_iff. tauto. Qed.
Lemma set_length_form c s y : In y (set_length_opts c s) -> exists z, y = copt (L "FixedBitLength<" ++ z) \/ y = copt (L "FixedLength<" ++ z).
Proof. unfold set_length_opts. destruct (negb _); intros [<-|[]]; eexists; [left|right]; reflexivity. Qed.
Lemma set_default_form c s y : In y (set_default_opts c s) -> exists z, y = copt (L "DefaultNumValue<" ++ z) \/ y = copt (L "DefaultBigUnsignedNumValue<" ++ z).
Proof.
  unfold set_default_opts. cbv zeta. destruct (_ =? 0); [intros []|].
  destruct (match s_type s with Some Uint64 | Some Uintvar => true | _ => false end); intros [<-|[]]; eexists; [right|left]; reflexivity.
Qed.
Lemma set_reserved_form ge c s y : In y (set_reserved_opts ge c s) -> exists z, y = copt (L "VersionStorage") \/ y = copt (L "BitmaskReservedBits<" ++ z).
Proof.
  unfold set_reserved_opts. destruct (set_reserved ge c s) as [[m v] mu]. intros H. apply in_app_or in H as [H|H].
  - destruct mu; [|destruct H]. destruct H as [<-|[]]. exists []. left. reflexivity.
  - destruct (m =? 0); [destruct H|]. destruct H as [<-|[]]. eexists. right. reflexivity.
Qed.
Ltac other_form I := exfalso;
  first [ apply set_length_form in I as (?z & [?E|?E]) | apply set_default_form in I as (?z & [?E|?E]) | apply set_reserved_form in I as (?z & [?E|?E]) ].
Lemma set_length_unique ge x c s y : about_length y -> In y (set_def_opts ge x c s) <-> In y (set_length_opts c s).
Proof.
  intros A. rewrite set_opts_In. split; [|auto 6]. apply about_length_form in A as (n & a & N & ->).
  intros [[E _]|[I|[I|[I|I]]]]; [| |exact I| |]; exfalso.
  - cbn [In] in N. repeat destruct N as [<-|N]; try contradiction; discriminate E.
  - eapply def_options_not; [exact I|]. cbn [In] in N |- *. tauto.
  - apply set_default_form in I as (z & [E|E]); cbn [In] in N; repeat destruct N as [<-|N]; try contradiction; discriminate E.
  - apply set_reserved_form in I as (z & [E|E]); cbn [In] in N; repeat destruct N as [<-|N]; try contradiction; discriminate E.
Qed.
(** A set class is serialised with the length the parser reports, which is between 1 and 8 bytes
    unless its type is of variable length; the C++ type does not matter. *)
Theorem C62_length_partial : forall ge x c s ty, set_reachable s -> c_inBitfield c = false ->
  serialised_length ty (set_def_opts ge x c s) (s_length s) (s_length s) /\ (s_type s <> Some Uintvar -> 1 <= s_length s <= 8).
Proof.
  intros ge x c s ty R B. apply set_reachable_inv in R. destruct (sinv_type _ R) as (t & Et & U & Ln).
  assert (M : max_type_length t <= 10 /\ (t <> Uintvar -> max_type_length t <= 8)).
  { destruct t; try discriminate U; cbn; (split; [lia|]); intros N; lia || congruence. }
  split; [|intros N; destruct M as [_ M]; assert (t <> Uintvar) by congruence; specialize (M H); lia].
  left. exists (copt (L "FixedLength<" ++ genNumToStringU (s_length s) 0 ++ L ">")).
  assert (E : set_length_opts c s = [copt (L "FixedLength<" ++ genNumToStringU (s_length s) 0 ++ L ">")]).
  { unfold set_length_opts, set_bit_length. rewrite B. reflexivity. }
  assert (K : length_option (copt (L "FixedLength<" ++ genNumToStringU (s_length s) 0 ++ L ">")) (s_length s) (s_length s)).
  { left. exists (genNumToStringU (s_length s) 0). split; [unfold an_option, copt; cbn [join]; rewrite <- ?app_assoc; reflexivity|].
    split; [apply numU_spec; unfold two64; lia|reflexivity]. }
  split; [apply set_length_unique; [left; eauto|rewrite E; now left]|]. split; [exact K|].
  intros y I A. apply set_length_unique in I; [|exact A]. rewrite E in I. now destruct I as [<-|[]].
Qed.
Print Assumptions C62_length_partial.
Theorem C62_bits : forall ge x c s, set_reachable s -> c_inBitfield c = true ->
  exists y, In y (set_def_opts ge x c s) /\ bit_length_option y (s_bitLength s) /\ forall y', In y' (set_def_opts ge x c s) -> about_length y' -> y' = y.
Proof.
  intros ge x c s R B. apply set_reachable_inv in R. destruct (sinv_type _ R) as (t & Et & U & Ln). pose proof (sinv_bits _ R) as Bt.
  assert (M : max_type_length t <= 10) by (destruct t; cbn; lia).
  exists (copt (L "FixedBitLength<" ++ genNumToStringU (s_bitLength s) 0 ++ L ">")).
  assert (E : set_length_opts c s = [copt (L "FixedBitLength<" ++ genNumToStringU (s_bitLength s) 0 ++ L ">")]).
  { unfold set_length_opts, set_bit_length. rewrite B. replace (s_bitLength s =? 0) with false by lia. reflexivity. }
  assert (K : bit_length_option (copt (L "FixedBitLength<" ++ genNumToStringU (s_bitLength s) 0 ++ L ">")) (s_bitLength s)).
  { exists (genNumToStringU (s_bitLength s) 0). split; [left; unfold an_option, copt; cbn [join]; rewrite <- ?app_assoc; reflexivity|]. apply numU_spec; unfold two64; lia. }
  split; [apply set_length_unique; [right; eauto|rewrite E; now left]|]. split; [exact K|].
  intros y I A. apply set_length_unique in I; [|exact A]. rewrite E in I. now destruct I as [<-|[]].
Qed.
Print Assumptions C62_bits.

(** ** Default value *)
(** The default value has the bits which the declarations ask for, and no other.  Missing: if bits
    of different versions share an index, which of them counts. *)
Theorem C62_default_partial : forall ge x c s, set_reachable s ->
  exists v n, default_value (set_def_opts ge x c s) v /\ bits_of (c_inBitfield c) s n /\ 0 <= v < 2 ^ n /\
    forall k, 0 <= k < n -> default_bit s k (Z.testbit v k).
Proof.
  intros ge x c s R. apply set_reachable_inv in R. destruct (used_bits_pos c s R) as [Up Ub].
  exists (set_default c s), (Z.min (used_bits c s) 64). split; [|split; [exact Ub|split]].
  - assert (U : forall y w, default_option y w -> (In y (set_def_opts ge x c s) <-> In y (set_default_opts c s))).
    { intros y w A. rewrite set_opts_In. split; [|auto 6]. apply default_form1 in A as (n & a & N & ->). intros [[E _]|[I|[I|[I|I]]]]; [| | |exact I|]; exfalso.
      - cbn [In] in N. repeat destruct N as [<-|N]; try contradiction; discriminate E.
      - eapply def_options_not; [exact I|]. cbn [In] in N |- *. tauto.
      - apply set_length_form in I as (z & [E|E]); cbn [In] in N; repeat destruct N as [<-|N]; try contradiction; discriminate E.
      - apply set_reserved_form in I as (z & [E|E]); cbn [In] in N; repeat destruct N as [<-|N]; try contradiction; discriminate E. }
    assert (Rg : 0 <= set_default c s < two64) by (unfold set_default; rewrite length_mask_ones by lia; apply land_ones_range; lia).
    unfold set_default_opts in U. cbv zeta in U. destruct (set_default c s =? 0) eqn:E0.
    + right. split; [intros y w I A; apply (U y w A) in I; exact I|lia].
    + left. destruct (match s_type s with Some Uint64 | Some Uintvar => true | _ => false end).
      * assert (A : default_option (copt (L "DefaultBigUnsignedNumValue<" ++ genNumToStringU (set_default c s) 1 ++ L ">")) (set_default c s)).
        { exists (genNumToStringU (set_default c s) 1). split; [right; unfold an_option, copt; cbn [join]; rewrite <- ?app_assoc; reflexivity|]. apply constant_unsigned; [exact Rg|lia]. }
        eexists. split; [apply (U _ _ A); now left|]. split; [exact A|]. intros y' w I A'. apply (U y' w A') in I. now destruct I as [<-|[]].
      * assert (A : default_option (copt (L "DefaultNumValue<" ++ genNumToStringU (set_default c s) 1 ++ L ">")) (set_default c s)).
        { exists (genNumToStringU (set_default c s) 1). split; [left; unfold an_option, copt; cbn [join]; rewrite <- ?app_assoc; reflexivity|]. apply constant_unsigned; [exact Rg|lia]. }
        eexists. split; [apply (U _ _ A); now left|]. split; [exact A|]. intros y' w I A'. apply (U y' w A') in I. now destruct I as [<-|[]].
  - unfold set_default. rewrite length_mask_ones by lia. rewrite Z.land_ones by lia. apply Z.mod_pos_bound. apply Z.pow_pos_nonneg; lia.
  - intros k Hk. unfold set_default. rewrite length_mask_ones by lia. rewrite testbit_land_ones by lia. replace (k <? Z.min (used_bits c s) 64) with true by lia. cbn [andb].
    destruct (default_fold _ (idx_pos s R) (if s_defaultBit s then ones64 else 0) k ltac:(lia)) as [([n b] & I & E & ->)|[N ->]].
    + left. exists n, b. apply in_bits_map in I. split; [split; assumption|reflexivity].
    + right. split.
      * intros n b [I E]. apply in_bits_map in I. exact (N _ I E).
      * destruct (s_defaultBit s); [apply testbit_ones64; lia|apply Z.bits_0].
Qed.
Print Assumptions C62_default_partial.

(** ** Reserved bits *)
Lemma reserved_option_inv a b x y m r : constant a x -> constant b y -> reserved_option (an_option (T "BitmaskReservedBits") [a; b]) m r -> m = x /\ r = y.
Proof.
  intros C D (a' & b' & E & C' & D'). assert (Hn : ~ In "<"%char (T "BitmaskReservedBits")) by no_lt.
  apply opt_inj in E as [_ Ej]; try exact Hn. apply join2_inj in Ej as [-> ->]; try (eapply constant_no; [eassumption|cbn; tauto]).
  split; eapply constant_det; eassumption.
Qed.
(** what the options ask of the bits *)
Lemma bitmask_bits ge x c s mask value must v : set_inv s -> set_reserved ge c s = (mask, value, must) -> 0 <= v ->
  bitmask_valid (set_def_opts ge x c s) v <-> forall k, 0 <= k -> Z.testbit mask k = true -> Z.testbit v k = Z.testbit value k.
Proof.
  intros R H Hv. destruct (reserved_bits ge c s mask value must R H) as (M & V & K).
  assert (Q : Z.land v mask = value <-> forall k, 0 <= k -> Z.testbit mask k = true -> Z.testbit v k = Z.testbit value k).
  { rewrite land_eq_iff by lia. split; intros Q k Hk.
    - intros E. specialize (Q k Hk). rewrite E, andb_true_r in Q. exact Q.
    - specialize (Q k Hk). destruct (K k Hk) as (_ & K2 & _). destruct (Z.testbit mask k); [rewrite andb_true_r; auto|].
      rewrite andb_false_r. destruct (Z.testbit value k); [specialize (K2 eq_refl); discriminate|reflexivity]. }
  rewrite <- Q. unfold bitmask_valid. split.
  - intros A. destruct (mask =? 0) eqn:E0.
    + apply Q. intros k Hk E. replace mask with 0 in E by lia. rewrite Z.bits_0 in E. discriminate.
    + apply (A (copt (L "BitmaskReservedBits<" ++ genNumToStringU mask 1 ++ L ", " ++ genNumToStringU value 1 ++ L ">"))).
      * apply set_opts_In. do 4 right. unfold set_reserved_opts. rewrite H, E0. apply in_or_app. right. now left.
      * exists (genNumToStringU mask 1), (genNumToStringU value 1). split; [unfold an_option, copt; cbn [join]; rewrite <- ?app_assoc; reflexivity|].
        split; apply constant_unsigned; lia.
  - intros E o m r I A. assert (N : exists a, o = an_option (T "BitmaskReservedBits") [a]).
    { destruct A as (a & b & -> & _). rewrite opt2_one. eauto. }
    apply set_opts_In in I as [[I _]|[I|[I|[I|I]]]].
    + destruct N as (a & ->). discriminate I.
    + destruct N as (a & ->). apply def_options_form in I as [F|[[z F]|[[z F]|[[z F]|[[z F]|[[z F]|F]]]]]]; discriminate F.
    + destruct N as (a & ->). apply set_length_form in I as (z & [F|F]); discriminate F.
    + destruct N as (a & ->). apply set_default_form in I as (z & [F|F]); discriminate F.
    + unfold set_reserved_opts in I. rewrite H in I. apply in_app_or in I as [I|I].
      * destruct must; [|destruct I]. destruct I as [<-|[]]. destruct N as (a & F). discriminate F.
      * destruct (mask =? 0); [destruct I|]. destruct I as [<-|[]].
        assert (W : copt (L "BitmaskReservedBits<" ++ genNumToStringU mask 1 ++ L ", " ++ genNumToStringU value 1 ++ L ">") =
                    an_option (T "BitmaskReservedBits") [genNumToStringU mask 1; genNumToStringU value 1]) by (unfold an_option, copt; cbn [join]; rewrite <- ?app_assoc; reflexivity).
        rewrite W in A. apply (reserved_option_inv _ _ mask value) in A as [-> ->]; [exact E| |]; apply constant_unsigned; lia.
Qed.
(** Without checks of the version a value is valid exactly if all of its bits are allowed. *)
Theorem C62_reserved_partial : forall ge x c s n, set_reachable s -> bits_of (c_inBitfield c) s n ->
  (forall k n b n' b', declared_bit s k n b -> declared_bit s k n' b' -> b_reserved b = true -> b_reserved b' = true -> b_reservedValue b = b_reservedValue b') ->
  (ge_versionDependent ge = false \/ s_validCheckVersion s = false) ->
  forall v, 0 <= v < 2 ^ n ->
   (bitmask_valid (set_def_opts ge x c s) v <-> forall k, 0 <= k < n -> allowed_bit s k (Z.testbit v k)).
Proof.
  intros ge x c s n R Bn SR V v Hv. apply set_reachable_inv in R. destruct (used_bits_pos c s R) as [Up Ub].
  assert (Ck : set_check ge s = false) by (unfold set_check; destruct V as [-> | ->]; [reflexivity|apply andb_false_r]).
  assert (En : n = Z.min (used_bits c s) 64) by (unfold bits_of in *; congruence). clear Bn Ub.
  destruct (set_reserved ge c s) as [[mask value] must] eqn:H.
  rewrite (bitmask_bits ge x c s mask value must v R H) by lia. destruct (reserved_bits ge c s mask value must R H) as (_ & _ & K).
  rewrite Ck in K. unfold bit_skipped, bit_freed in K. cbn [andb orb] in K. rewrite <- En in K.
  assert (P : forall k, 0 <= k < n -> ((Z.testbit mask k = true -> Z.testbit v k = Z.testbit value k) <-> allowed_bit s k (Z.testbit v k))).
  { intros k Hk. destruct (K k ltac:(lia)) as (_ & _ & Q). destruct (Q ltac:(lia)) as [([m b] & I & E & _ & F & ->)|(N & -> & W)].
    - split; [intros _|discriminate]. left. exists m, b. split; [split; assumption|]. cbn [snd] in F. now apply negb_true_iff.
    - assert (N' : forall m b, declared_bit s k m b -> b_reserved b = true).
      { intros m b [I E]. specialize (N _ I E eq_refl). cbn [snd] in N. now apply negb_false_iff. }
      destruct W as [([m b] & I & E & _ & W)|[W1 W2]]; cbn [snd] in *.
      + rewrite W. split.
        * intros G. right. left. exists m, b. split; [split; assumption|auto].
        * intros [(m' & b' & D & F)|[(m' & b' & D & F)|[F _]]] _; [rewrite (N' _ _ D) in F; discriminate| |exfalso; exact (F m b (conj I E))].
          rewrite F. exact (SR k m' b' m b D (conj I E) (N' _ _ D) (N' _ _ (conj I E))).
      + rewrite W2. assert (Z : forall m b, ~ declared_bit s k m b) by (intros m b [I E]; specialize (W1 _ I E); discriminate W1).
        split; [intros G; right; right; auto|]. intros [(m' & b' & D & _)|[(m' & b' & D & _)|[_ F]]] _; [exfalso; exact (Z _ _ D)|exfalso; exact (Z _ _ D)|exact F]. }
  split.
  - intros A k Hk. apply (P k Hk). apply A. lia.
  - intros A k Hk E. destruct (K k Hk) as (B & _). specialize (B E). apply (P k); auto.
Qed.
Print Assumptions C62_reserved_partial.

(** ** Examples *)
Definition ex_set5 (attrs : list (string * string)) (children : list node) : res set_state :=
  let n := Elem (L "set") (ex_attrs attrs) children in set_parse ex_env5 (ex_common 0 false) (parseNodeProps n) n None.
Lemma ex_set5_reach a ch s : ex_set5 a ch = Ok s -> set_reachable s.
Proof. intros H. eapply sr_fresh. exact H. Qed.
Definition ex_bit5 (l : list (string * string)) : node := ex_child "bit" l.
Lemma bits_dec s (p : bit_info -> bit_info -> bool) (P : bit_info -> bit_info -> Prop) : (forall a b, p a b = true -> P a b) ->
  forallb (fun x => forallb (fun y => implb (b_idx (snd x) =? b_idx (snd y)) (p (snd x) (snd y))) (s_bits s)) (s_bits s) = true ->
  forall k n b n' b', declared_bit s k n b -> declared_bit s k n' b' -> P b b'.
Proof.
  intros H F k n b n' b' [I E] [I' E']. apply H. rewrite forallb_forall in F. specialize (F _ I). cbn [snd] in F. rewrite forallb_forall in F. specialize (F _ I').
  cbn [snd] in F. rewrite E, E', Z.eqb_refl in F. exact F.
Qed.
Definition got_set (r : res set_state) : set_state := match r with Ok s => s | _ => mkSet None Big 0 0 [] false false false false false end.
Definition ex_bits : set_state := Eval vm_compute in
  got_set (ex_set5 [("length", "2"); ("reservedValue", "1"); ("defaultValue", "true")] [ex_bit5 [("name", "A"); ("idx", "0")];
         ex_bit5 [("name", "B"); ("idx", "2"); ("reserved", "true"); ("reservedValue", "0")]; ex_bit5 [("name", "C"); ("idx", "15"); ("defaultValue", "false")]]).
Example C62_ex : exists s, ex_set5 [("length", "2"); ("reservedValue", "1"); ("defaultValue", "true")] [ex_bit5 [("name", "A"); ("idx", "0")];
         ex_bit5 [("name", "B"); ("idx", "2"); ("reserved", "true"); ("reservedValue", "0")]; ex_bit5 [("name", "C"); ("idx", "15"); ("defaultValue", "false")]] = Ok s /\
  set_reachable s /\ bits_of false s 16 /\
  (forall k n b n' b', declared_bit s k n b -> declared_bit s k n' b' -> b_reserved b = true -> b_reserved b' = true -> b_reservedValue b = b_reservedValue b') /\
  set_def_opts plain_ge plain_fs (ex_common 0 false) s =
    map (fun x => T x) ["TExtraOpts..."; "comms::option::def::FixedLength<2>"; "comms::option::def::DefaultNumValue<0x7FFF>"; "comms::option::def::BitmaskReservedBits<0x7FFE, 0x7FFA>"].
Proof.
  exists ex_bits. split; [vm_compute; reflexivity|]. split; [apply (ex_set5_reach [("length", "2"); ("reservedValue", "1"); ("defaultValue", "true")] [ex_bit5 [("name", "A"); ("idx", "0")];
         ex_bit5 [("name", "B"); ("idx", "2"); ("reserved", "true"); ("reservedValue", "0")]; ex_bit5 [("name", "C"); ("idx", "15"); ("defaultValue", "false")]]); vm_compute; reflexivity|]. split; [vm_compute; reflexivity|]. split; [|vm_compute; reflexivity].
  apply (bits_dec ex_bits (fun b b' => implb (b_reserved b) (implb (b_reserved b') (Bool.eqb (b_reservedValue b) (b_reservedValue b'))))
    (fun b b' => b_reserved b = true -> b_reserved b' = true -> b_reservedValue b = b_reservedValue b')); [|vm_compute; reflexivity].
  intros a b H A B. rewrite A, B in H. cbn [implb] in H. now apply Bool.eqb_prop.
Qed.
(** A set of variable length gets 10 bytes, more than an integral value of the library may have. *)
Theorem C62_length_refuted : exists s, ex_set5 [("type", "uintvar")] [] = Ok s /\ set_reachable s /\
  serialised_length (T "std::uint64_t") (set_def_opts plain_ge plain_fs (ex_common 0 false) s) 10 10.
Proof.
  by_eval E. pose proof (ex_set5_reach _ _ _ E) as R. split; [exact R|]. clear E.
  apply (C62_length_partial plain_ge plain_fs (ex_common 0 false) _ (T "std::uint64_t") R). reflexivity.
Qed.
Print Assumptions C62_length_refuted.
(** If bits share an index the last one in alphabetical order counts, even if it does not exist any
    more in the version the code is generated for. *)
Definition old_bit : set_state := Eval vm_compute in
  got_set (ex_set5 [("length", "1"); ("nonUniqueAllowed", "true")] [ex_bit5 [("name", "Old"); ("idx", "0"); ("defaultValue", "true"); ("deprecated", "2")];
         ex_bit5 [("name", "New"); ("idx", "0"); ("sinceVersion", "2")]]).
Theorem C62_default_refuted : exists s v, ex_set5 [("length", "1"); ("nonUniqueAllowed", "true")] [ex_bit5 [("name", "Old"); ("idx", "0"); ("defaultValue", "true"); ("deprecated", "2")];
         ex_bit5 [("name", "New"); ("idx", "0"); ("sinceVersion", "2")]] = Ok s /\ set_reachable s /\
  (forall n b, declared_bit s 0 n b -> present_at (b_since b) (b_depr b) true 5 -> b_default b = false) /\
  default_value (set_def_opts plain_ge plain_fs (ex_common 0 false) s) v /\ Z.testbit v 0 = true.
Proof.
  exists old_bit, 1. split; [vm_compute; reflexivity|]. split; [apply (ex_set5_reach [("length", "1"); ("nonUniqueAllowed", "true")] [ex_bit5 [("name", "Old"); ("idx", "0"); ("defaultValue", "true"); ("deprecated", "2")];
         ex_bit5 [("name", "New"); ("idx", "0"); ("sinceVersion", "2")]]); vm_compute; reflexivity|].
  assert (Ec : set_def_opts plain_ge plain_fs (ex_common 0 false) old_bit =
    map (fun x => T x) ["TExtraOpts..."; "comms::option::def::FixedLength<1>"; "comms::option::def::DefaultNumValue<0x1>"; "comms::option::def::BitmaskReservedBits<0xFE, 0x0>"]) by (vm_compute; reflexivity).
  split; [|split; [|reflexivity]].
  - cbn [old_bit s_bits]. intros n b [[E|[E|[]]] _] [_ P]; apply pair_equal_spec in E as [_ <-]; [specialize (P eq_refl); cbn in P; lia|reflexivity].
  - rewrite Ec. left. exists (T "comms::option::def::DefaultNumValue<0x1>"). split; [do 2 right; left; reflexivity|]. split.
    + exists (T "0x1"). split; [left; reflexivity|]. change (T "0x1") with (genNumToStringU 1 1). apply constant_unsigned; unfold two64; lia.
    + intros o' w [<-|[<-|[<-|[<-|[]]]]] A; [| |reflexivity|]; apply default_form1 in A as (n & a & N & E); cbn [In] in N; repeat destruct N as [<-|N]; try contradiction; discriminate E.
Qed.
Print Assumptions C62_default_refuted.
