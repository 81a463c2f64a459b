(** C64: the named bits of generated set fields. *)
From Coq Require Import Lia Sorted Permutation ZifyBool ZifyNat.
From Verif.Model Require Import Base Common Xml Units Field FieldCommon IntField EnumField SetField GenUtil GenComms CommsInt CommsEnum CommsSet CommsBits.
From Verif.Spec Require Import Texts Ints Versions IntSpec EnumSpec GenSpec NameSpec CppSpec CondCode BodySpec EnumCode SetCode BitCode.
From Verif.Proofs Require Import BaseFacts CommonFacts IntFacts RangeFacts IntInv EnumInv GenFacts RefFacts TemplateFacts CommsIntFacts CommsOptFacts CondTextFacts CondMeanFacts EnumTextFacts EnumGenFacts SetFacts BitFacts.
From Verif.Props Require Import PTexts PInt PEnum PTemplate PCondCode PComms PEnumNames PSetGen PSetValid.
Local Open Scope string_scope. Local Open Scope Z_scope. Local Open Scope list_scope.

(** ** Access functions *)
Lemma to_string_constant v : 0 <= v < 2 ^ 31 -> constant (dec_str v) v.
Proof.
  intros R. destruct (dec_str_spec v) as [N Z0]; [unfold two64; lia|]. econstructor. rewrite <- (app_nil_r (dec_str v)). eapply cpp_dec; [exact N|exact Z0|left; now split|].
  apply first_here. unfold ctype_holds. cbn. lia.
Qed.
Lemma combine_split {A B} (l : list (A * B)) : combine (map snd l) (map fst l) = map (fun x => (snd x, fst x)) l.
Proof. induction l as [|[a b] l IH]; [reflexivity|]. cbn. now rewrite IH. Qed.
(** The access code of a set class names exactly the declared bits, each with its index. *)
Theorem C64_access_partial : forall ge s text, set_reachable s -> s_type s <> Some Uintvar -> s_bits s <> [] -> access_code ge s = Ok text ->
  exists bits, bit_access text bits /\ NoDup (map fst bits) /\ forall n k, In (n, k) bits <-> exists b, declared_bit s k n b.
Proof.
  intros ge s text R Nv Nb H. pose proof (bits_limit s R Nv) as Lim. apply set_reachable_inv in R as Inv.
  assert (All : forall n k, In (n, k) (map (fun x : Z * str => (snd x, fst x)) (access_bits s)) <-> exists b, declared_bit s k n b).
  { intros n k. rewrite in_map_iff. split.
    - intros ([j m] & E & I). cbn [fst snd] in E. apply pair_equal_spec in E as [-> ->]. now apply access_In in I.
    - intros (b & D). exists (k, n). split; [reflexivity|]. apply access_In. split; [eapply Lim; exact D|eauto]. }
  assert (Nd : NoDup (map fst (map (fun x : Z * str => (snd x, fst x)) (access_bits s)))).
  { rewrite map_map. cbn [fst]. exact (access_names s Inv). }
  assert (Ne : map snd (access_bits s) <> []).
  { intros E. destruct (s_bits s) as [|[n b] l] eqn:Eb; [congruence|]. assert (I : In n (map snd (access_bits s))).
    { apply in_map_iff. exists (b_idx b, n). split; [reflexivity|]. assert (D : declared_bit s (b_idx b) n b) by (split; [rewrite Eb; now left|reflexivity]). apply access_In. split; [eapply Lim; exact D|eauto]. }
    rewrite E in I. exact I. }
  pose proof (names_rows s Inv) as Fn. unfold access_code in H. cbv zeta in H. destruct (access_seq s) eqn:Q.
  - destruct (seq_text ge s text _ eq_refl Ne Fn H) as (before & C & E). exists (map (fun x : Z * str => (snd x, fst x)) (access_bits s)). split; [|auto].
    eexists. split; [|exact E]. rewrite <- combine_split. rewrite (access_seq_spec s Inv Q). rewrite <- (map_length snd). now constructor.
  - assert (Num : forall k n, In (k, n) (access_bits s) -> bit_number s n = n ++ T "=" ++ dec_str k).
    { intros k n I. apply access_In in I as (_ & b & I & <-). unfold bit_number. destruct (bit_In s n b Inv I) as (-> & _). reflexivity. }
    assert (Fb : Forall row_ok (map (bit_number s) (map snd (access_bits s)))).
    { apply Forall_forall. intros y I. apply in_map_iff in I as (n & <- & I). rewrite Forall_forall in Fn. pose proof (Fn n I) as [Rn _]. apply in_map_iff in I as ([k m] & <- & I).
      cbn [snd]. rewrite (Num k m I). apply row_more; [exact Rn|]. apply flat_app; [apply flat_dec; reflexivity|apply dec_plain]. }
    destruct (own_text ge s text _ Ne Fn Fb H) as (before & between & C1 & C2 & E). exists (map (fun x : Z * str => (snd x, fst x)) (access_bits s)). split; [|auto].
    eexists. split; [|exact E].
    set (bits := map (fun x : Z * str => (snd x, dec_str (fst x), fst x)) (access_bits s)).
    assert (E1 : map (bit_number s) (map snd (access_bits s)) = map (fun x : txt * txt * Z => fst (fst x) ++ T "=" ++ snd (fst x)) bits).
    { unfold bits. rewrite !map_map. apply map_ext_in. intros [k n] I. cbn [fst snd]. now apply Num. }
    assert (E2 : map snd (access_bits s) = map (fun x : txt * txt * Z => fst (fst x)) bits) by (unfold bits; rewrite map_map; reflexivity).
    assert (E3 : map (fun x : Z * str => (snd x, fst x)) (access_bits s) = map (fun x : txt * txt * Z => (fst (fst x), snd x)) bits) by (unfold bits; rewrite map_map; reflexivity).
    rewrite E1, E2, E3. constructor; auto. unfold bits. apply Forall_forall. intros x I. apply in_map_iff in I as ([k n] & <- & I). cbn [fst snd].
    apply access_In in I as (Lt & b & I & Ek). apply (bit_In s n b Inv) in I. apply to_string_constant. lia.
Qed.
Print Assumptions C64_access_partial.

(** ** Names *)
Lemma bits_unique_spec s k n b n' b' : bits_unique s = true -> declared_bit s k n b -> declared_bit s k n' b' -> n = n' /\ b = b'.
Proof.
  intros U [I E] [I' E']. apply idx_unique_spec in U. revert U I I'. generalize (s_bits s). intros l U I I'. subst k.
  induction l as [|x l IH]; [destruct I|]. cbn [map] in U. inversion U as [|? ? N1 N2]; subst. destruct I as [->|I], I' as [Q|I'].
  - apply pair_equal_spec in Q as [-> ->]. auto.
  - exfalso. apply N1. apply in_map_iff. exists (n', b'). auto.
  - subst x. exfalso. apply N1. apply in_map_iff. exists (n, b). split; [symmetry; exact E'|exact I].
  - auto.
Qed.
Lemma not_deprecated_bit_In ver bits k l y : not_deprecated_bit ver bits k l = Some y -> In (k, fst y) l /\ assoc (fst y) bits = Some (snd y) /\ ver < b_depr (snd y).
Proof.
  induction l as [|[w n] l IH]; cbn [not_deprecated_bit]; [discriminate|]. destruct (w =? k) eqn:E.
  - destruct (assoc n bits) as [x|] eqn:A; [|intros H; destruct (IH H); auto using in_cons]. destruct (ver <? b_depr x) eqn:D.
    + intros H. injection H as <-. cbn [fst snd]. assert (w = k) by lia. subst w. split; [now left|]. split; [exact A|lia].
    + intros H. destruct (IH H) as [I K]. split; [now right|exact K].
  - intros H. destruct (IH H) as [I K]. split; [now right|exact K].
Qed.
Lemma not_deprecated_bit_None ver bits k l n x : not_deprecated_bit ver bits k l = None -> In (k, n) l -> assoc n bits = Some x -> b_depr x <= ver.
Proof.
  induction l as [|[w m] l IH]; cbn [not_deprecated_bit]; [intros _ []|]. intros H [E|I] A.
  - apply pair_equal_spec in E as [-> ->]. rewrite Z.eqb_refl, A in H. destruct (ver <? b_depr x) eqn:D; [discriminate|lia].
  - destruct (if w =? k then assoc m bits else None) as [y|]; [|auto]. destruct (ver <? b_depr y); [discriminate|auto].
Qed.
Lemma shown_bit_spec ge s k n : set_inv s -> In (k, n) (rev_bits s) ->
  exists t, shown_bit ge s k n = Ok (string_literal t) /\ bit_shows (genSchemaVersion (ge_ver ge)) s k (Some t).
Proof.
  intros Inv I. apply revb_In in I as I0. destruct I0 as (b & D). pose proof (proj1 (bit_In s n b Inv (proj1 D))) as A. set (ver := genSchemaVersion (ge_ver ge)).
  assert (One : forall m y, declared_bit s k m y -> ((exists m' y', declared_bit s k m' y' /\ ver < b_depr y') -> ver < b_depr y) ->
    bit_shows ver s k (Some (genDisplayName (b_displayName y) m))).
  { intros m y Dm P. exists m, y. split; [exact Dm|]. split; [apply display_spec|exact P]. }
  assert (Uniq : s_nonUnique s = false -> bits_unique s = true) by (intros E; apply idx_unique_spec; exact (sinv_unique _ Inv E)).
  unfold shown_bit. rewrite A. cbn [fst snd]. fold ver. destruct (negb (s_nonUnique s) || (ver <? b_depr b) || bits_unique s) eqn:E.
  - eexists. split; [reflexivity|]. apply One; [exact D|]. intros (m & y & Dy & P).
    destruct (bits_unique s) eqn:U; [destruct (bits_unique_spec s k n b m y U D Dy) as [_ ->]; exact P|].
    destruct (s_nonUnique s); [cbn [negb orb] in E; lia|]. discriminate (Uniq eq_refl).
  - destruct (not_deprecated_bit ver (s_bits s) k (rev_bits s)) as [[m y]|] eqn:E2.
    + apply not_deprecated_bit_In in E2 as (Im & Am & P). cbn [fst snd] in *. eexists. split; [reflexivity|]. apply One; [|auto].
      apply revb_In in Im as (y' & Dy'). pose proof (proj1 (bit_In s m y' Inv (proj1 Dy'))) as A'. assert (y' = y) as -> by congruence. exact Dy'.
    + eexists. split; [reflexivity|]. apply One; [exact D|]. intros (m & y & Dy & P). pose proof (proj1 (bit_In s m y Inv (proj1 Dy))) as A2.
      pose proof (not_deprecated_bit_None _ _ _ _ _ _ E2 (proj2 (revb_In s k m) (ex_intro _ y Dy)) A2). lia.
Qed.
Lemma bit_names_spec ge s : forall l next els, StronglySorted (fun a b : Z * str => fst a <= fst b) l -> bit_names ge s next l = Ok els ->
  (forall k e, nth_error els k = Some e ->
     (e = L "nullptr" /\ forall n, ~ In (next + Z.of_nat k, n) l) \/ (exists n, In (next + Z.of_nat k, n) l /\ shown_bit ge s (next + Z.of_nat k) n = Ok e)) /\
  (forall v n, In (v, n) l -> next <= v -> v - next < Z.of_nat (length els)).
Proof.
  induction l as [|[v n] l IH]; intros next els S H; cbn [bit_names] in H.
  { apply Ok_inj in H. subst els. split; [intros [|k] e; discriminate|intros v n []]. }
  inversion S as [|? ? S1 S2]; subst. rewrite Forall_forall in S2. cbn [fst] in S2. destruct (v <? next) eqn:E.
  - destruct (IH next els S1 H) as [A B]. split.
    + intros k e K. destruct (A k e K) as [[-> N]|(m & I & Hm)]; [left|right].
      * split; [reflexivity|]. intros m [J|J]; [apply pair_equal_spec in J as [J _]; lia|exact (N m J)].
      * exists m. split; [now right|exact Hm].
    + intros w m [J|J] L0; [apply pair_equal_spec in J as [<- <-]; lia|eauto].
  - apply bind_Ok in H as (t & Ht & H). apply bind_Ok in H as (rest & Hr & H). apply Ok_inj in H. subst els.
    destruct (IH (v + 1) rest S1 Hr) as [A B]. set (g := Z.to_nat (v - next)) in *. assert (Eg : Z.of_nat g = v - next) by (unfold g; lia). clearbody g. split.
    + intros k e K. destruct (lt_eq_lt_dec k g) as [[Lt|Eq]|Gt].
      * left. rewrite nth_error_app1 in K by (rewrite repeat_length; exact Lt). apply nth_error_In, repeat_spec in K. split; [exact K|].
        intros m [J|J]; [apply pair_equal_spec in J as [J _]; lia|apply S2 in J; cbn [fst] in J; lia].
      * subst k. right. rewrite nth_error_app2, repeat_length, Nat.sub_diag in K by (rewrite repeat_length; lia). cbn [nth_error] in K. injection K as <-.
        exists n. assert (next + Z.of_nat g = v) as -> by lia. split; [now left|exact Ht].
      * rewrite nth_error_app2, repeat_length in K by (rewrite repeat_length; lia). destruct (k - g)%nat as [|j] eqn:Ej; [lia|]. cbn [nth_error] in K.
        assert (next + Z.of_nat k = v + 1 + Z.of_nat j) as -> by lia. destruct (A j e K) as [[-> N]|(m & I & Hm)]; [left|right].
        -- split; [reflexivity|]. intros m [J|J]; [apply pair_equal_spec in J as [J _]; lia|exact (N m J)].
        -- exists m. split; [now right|exact Hm].
    + intros w m J L0. rewrite app_length, repeat_length. cbn [length]. destruct J as [J|J]; [apply pair_equal_spec in J as [<- <-]; lia|].
      pose proof (S2 _ J) as Q. cbn [fst] in Q. destruct (Z.eq_dec w v); [lia|]. specialize (B w m J ltac:(lia)). lia.
Qed.
Lemma bit_shows_plain ver s k t : set_inv s -> plain_bit_names s -> bit_shows ver s k (Some t) -> flat t.
Proof.
  intros Inv P (n & d & [I _] & D & _). remember (b_displayName d) as dn eqn:Ed. destruct D as [| |d' N1 N2].
  - destruct (bit_In s n d Inv I) as (_ & V & _). apply name_text in V. apply V.
  - intros [].
  - unfold plain_bit_names in P. rewrite Forall_forall in P. specialize (P _ I). cbn [snd] in P. rewrite <- Ed in P. intros J. apply (P newline J). now left.
Qed.
Lemma bit_body_text els body : els <> [] -> Forall plain_row els ->
  genProcessTemplate bit_name_templ [(L "NAMES", genStrListToString els (L "," ++ [nl]) [])] false = Ok body -> unindent true body = bit_name_code els.
Proof.
  intros N F H. rewrite list_join in H. pose proof (rows_comma els N F) as K.
  change (L "," ++ [nl]) with (T "," ++ [newline]) in H. assert (Nj : join (T "," ++ [newline]) els <> []).
  { destruct F as [|e l (_ & c & r & -> & _) F]; [congruence|]. destruct l; discriminate. }
  unfold bit_name_code. set (J := join (T "," ++ [newline]) els) in *. clearbody J.
  set (rest := [newline] ++ T "};" ++ [newline; newline] ++ T "static const std::size_t MapSize = std::extent<decltype(Map)>::value;" ++ [newline] ++ T "if (MapSize <= idx) {" ++ [newline] ++ T "    return nullptr;" ++ [newline] ++ T "}" ++ [newline; newline] ++ T "return Map[idx];").
  set (ps := [Text (T "static const char* Map[] = {" ++ [newline] ++ T "    "); Hole (T "NAMES"); Text rest]).
  change bit_name_templ with (template_text ps) in H. rewrite C36_filled in H.
  2: { unfold ps. constructor; [apply plain_no_hash, in_b_not; vm_compute; reflexivity|apply name_no_hash, in_b_not; vm_compute; reflexivity|]. constructor. apply end_no_hash, in_b_not. vm_compute. reflexivity. }
  2: { intros k [<-|[]]. exact Nj. }
  apply Ok_inj in H. subst body. unfold ps. cbn [filled]. change (lookup (T "NAMES") [(L "NAMES", J)]) with J. rewrite !app_nil_r.
  set (k := column _). clearbody k. pose proof (lay_indented k J J K) as K2. set (D := indented k J) in *. clearbody D.
  transitivity (T "static const char* Map[] = {" ++ newline :: unindent true (D ++ rest)); [reflexivity|]. rewrite K2. reflexivity.
Qed.
(** bitName(idx) reports the display name of a declared bit with this index, preferably of one which is not
    deprecated, and no name for other indices. *)
Theorem C64_names_partial : forall ge s body, set_reachable s -> plain_bit_names s -> bit_name_body ge s = Ok body ->
  forall k, 0 <= k -> exists t, bit_name body k t /\ bit_shows (genSchemaVersion (ge_ver ge)) s k t.
Proof.
  intros ge s body R P H k Hk. apply set_reachable_inv in R as Inv. unfold bit_name_body in H. apply bind_Ok in H as (els & He & H).
  destruct (bit_names_spec ge s _ _ _ (revb_sorted s) He) as [A B].
  assert (Sh : forall i e, nth_error els i = Some e -> exists t, e = element t /\ bit_shows (genSchemaVersion (ge_ver ge)) s (Z.of_nat i) t).
  { intros i e K. destruct (A i e K) as [[-> N]|(n & I & E)]; rewrite Z.add_0_l in *.
    - exists None. split; [reflexivity|]. intros n b D. apply (N n). apply revb_In. eauto.
    - destruct (shown_bit_spec ge s _ n Inv I) as (t & Et & St). rewrite Et in E. apply Ok_inj in E. exists (Some t). split; [symmetry; exact E|exact St]. }
  assert (Out : Z.of_nat (length els) <= k -> bit_shows (genSchemaVersion (ge_ver ge)) s k None).
  { intros L0 n b D. assert (I : In (k, n) (rev_bits s)) by (apply revb_In; eauto). specialize (B k n I Hk). lia. }
  destruct els as [|e els'] eqn:Ee; cbn [is_nil] in H.
  { apply Ok_inj in H. subst body. exists None. split; [left; split; [reflexivity|reflexivity]|]. apply Out. cbn [length]. lia. }
  assert (Ne : els <> []) by (rewrite Ee; discriminate). rewrite <- Ee in *. clear e els' Ee.
  assert (T0 : exists t, direct_name els k t /\ bit_shows (genSchemaVersion (ge_ver ge)) s k t).
  { destruct (Z_lt_le_dec k (Z.of_nat (length els))) as [Lt|Ge].
    - destruct (nth_error els (Z.to_nat k)) as [e|] eqn:K; [|apply nth_error_None in K; lia]. destruct (Sh _ _ K) as (t & -> & St). rewrite Z2Nat.id in St by exact Hk. exists t. split; [now apply dn_element|exact St].
    - exists None. split; [apply dn_outside; lia|now apply Out]. }
  destruct T0 as (t & Dt & St). exists t. split; [|exact St]. right. exists els. split; [|exact Dt].
  apply bit_body_text; [exact Ne| |exact H].
  apply Forall_forall. intros x I. apply In_nth_error in I as (i & I). destruct (Sh _ _ I) as ([u|] & -> & Su).
  - apply literal_plain. eapply bit_shows_plain; eassumption.
  - split; [apply flat_dec; reflexivity|exists "n"%char, (T "ullptr"); split; [reflexivity|discriminate]].
Qed.
Print Assumptions C64_names_partial.

(** The code is generated for every accepted field. *)
Theorem C64_generated : forall ge s, set_reachable s -> (exists text, access_code ge s = Ok text) /\ (exists body, bit_name_body ge s = Ok body).
Proof.
  intros ge s R. apply set_reachable_inv in R as Inv. split.
  - unfold access_code. cbv zeta. destruct (access_seq s).
    + generalize (genStrListToString (map (seq_doc ge s) (map snd (access_bits s))) [nl] []) (genStrListToString (map snd (access_bits s)) (L "," ++ [nl]) []). intros. eapply template_ok. vm_compute. reflexivity.
    + generalize (genStrListToString (map (access_doc ge s) (map snd (access_bits s))) [nl] []) (genStrListToString (map snd (access_bits s)) (L "," ++ [nl]) [])
        (genStrListToString (map (bits_doc ge s) (map snd (access_bits s))) [nl] []) (genStrListToString (map (bit_number s) (map snd (access_bits s))) (L "," ++ [nl]) []). intros. eapply template_ok. vm_compute. reflexivity.
  - assert (G : forall l next, (forall k n, In (k, n) l -> In (k, n) (rev_bits s)) -> exists els, bit_names ge s next l = Ok els).
    { induction l as [|[k n] l IH]; intros next Sub; [eexists; reflexivity|]. cbn [bit_names]. destruct (k <? next); [apply IH; intros; apply Sub; now right|].
      destruct (shown_bit_spec ge s k n Inv) as (t & -> & _); [apply Sub; now left|]. cbn [bind]. destruct (IH (k + 1)) as (els & ->); [intros; apply Sub; now right|]. eexists. reflexivity. }
    destruct (G (rev_bits s) 0) as (els & E); [auto|]. unfold bit_name_body. rewrite E. cbn [bind]. destruct (is_nil els); [eexists; reflexivity|].
    generalize (genStrListToString els (L "," ++ [nl]) []). intros. eapply template_ok. vm_compute. reflexivity.
Qed.
Print Assumptions C64_generated.

(** ** Examples *)
Definition ex_seq : set_state := Eval vm_compute in
  got_set (ex_set5 [("length", "1")] [ex_bit5 [("name", "B"); ("idx", "1"); ("displayName", "Second")]; ex_bit5 [("name", "A"); ("idx", "0"); ("deprecated", "3")]]).
Example C64_ex_seq : ex_set5 [("length", "1")] [ex_bit5 [("name", "B"); ("idx", "1"); ("displayName", "Second")]; ex_bit5 [("name", "A"); ("idx", "0"); ("deprecated", "3")]] = Ok ex_seq /\
  set_reachable ex_seq /\ s_type ex_seq <> Some Uintvar /\ plain_bit_names ex_seq /\
  access_code plain_ge ex_seq = Ok (whole (map (fun r => T r)
    ["/// @brief Provides names and generates access functions for internal bits."; "/// @details See definition of @b COMMS_BITMASK_BITS_SEQ macro";
     "///     related to @b comms::field::BitmaskValue class from COMMS library"; "///     for details."; "///"; "///      The generated enum values and functions are:";
     "///      @li @b BitIdx_A, @b getBitValue_A() and @b setBitValue_A()."; "///          Deprecated since version 3."; "///      @li @b BitIdx_B, @b getBitValue_B() and @b setBitValue_B().";
     "COMMS_BITMASK_BITS_SEQ("; "    A,"; "    B"; ");"])) /\
  bit_name_body plain_ge ex_seq = Ok (row_texts ["static const char* Map[] = {"; "    " ++ quote ++ "A" ++ quote ++ ","; "    " ++ quote ++ "Second" ++ quote; "};"; "";
    "static const std::size_t MapSize = std::extent<decltype(Map)>::value;"; "if (MapSize <= idx) {"; "    return nullptr;"; "}"; ""; "return Map[idx];"])%string.
Proof.
  split; [vm_compute; reflexivity|]. split; [apply (ex_set5_reach [("length", "1")] [ex_bit5 [("name", "B"); ("idx", "1"); ("displayName", "Second")]; ex_bit5 [("name", "A"); ("idx", "0"); ("deprecated", "3")]]); vm_compute; reflexivity|]. split; [discriminate|]. split; [|split; vm_compute; reflexivity].
  repeat constructor; intros c I; cbn in I; intuition (subst; vm_compute in *; intuition discriminate).
Qed.
Definition ex_own : set_state := Eval vm_compute in
  got_set (ex_set5 [("length", "1"); ("nonUniqueAllowed", "true")] [ex_bit5 [("name", "B"); ("idx", "2"); ("deprecated", "3")]; ex_bit5 [("name", "A"); ("idx", "0")]; ex_bit5 [("name", "C"); ("idx", "2"); ("sinceVersion", "3")]]).
Example C64_ex_own : ex_set5 [("length", "1"); ("nonUniqueAllowed", "true")] [ex_bit5 [("name", "B"); ("idx", "2"); ("deprecated", "3")]; ex_bit5 [("name", "A"); ("idx", "0")]; ex_bit5 [("name", "C"); ("idx", "2"); ("sinceVersion", "3")]] = Ok ex_own /\
  set_reachable ex_own /\ (exists text, access_code plain_ge ex_own = Ok text /\ bit_access text [(T "A", 0); (T "B", 2); (T "C", 2)]) /\
  bit_name_body plain_ge ex_own = Ok (row_texts ["static const char* Map[] = {"; "    " ++ quote ++ "A" ++ quote ++ ","; "    nullptr,"; "    " ++ quote ++ "C" ++ quote; "};"; "";
    "static const std::size_t MapSize = std::extent<decltype(Map)>::value;"; "if (MapSize <= idx) {"; "    return nullptr;"; "}"; ""; "return Map[idx];"])%string.
Proof.
  split; [vm_compute; reflexivity|]. split; [apply (ex_set5_reach [("length", "1"); ("nonUniqueAllowed", "true")] [ex_bit5 [("name", "B"); ("idx", "2"); ("deprecated", "3")]; ex_bit5 [("name", "A"); ("idx", "0")]; ex_bit5 [("name", "C"); ("idx", "2"); ("sinceVersion", "3")]]); vm_compute; reflexivity|]. split; [|vm_compute; reflexivity].
  eexists. split; [vm_compute; reflexivity|]. eexists. split.
  - apply (rows_own (own_lead ++ map (fun r => T r) ["///      @li @b BitIdx_A."; "///      @li @b BitIdx_B."; "///          Deprecated since version 3."; "///      @li @b BitIdx_C."])
      (own_lead2 ++ map (fun r => T r) ["///      @li @b getBitValue_A() and @b setBitValue_A()."; "///      @li @b getBitValue_B() and @b setBitValue_B()."; "///          Deprecated since version 3."; "///      @li @b getBitValue_C() and @b setBitValue_C()."])
      [(T "A", dec_str 0, 0); (T "B", dec_str 2, 2); (T "C", dec_str 2, 2)]); [apply comments_dec; vm_compute; reflexivity|apply comments_dec; vm_compute; reflexivity|].
    repeat constructor; cbn [fst snd]; apply to_string_constant; lia.
  - vm_compute. reflexivity.
Qed.

(** a bit of a field with more than 64 bits gets no name *)
Lemma unindent_sub t : forall b c, In c (unindent b t) -> In c t.
Proof.
  induction t as [|a t IH]; intros b c I; [exact I|]. cbn [unindent] in I. repeat match type of I with context [if ?x then _ else _] => destruct x end; cbn [In] in *;
    try (destruct I as [I|I]; [now left|]); right; eapply IH; exact I.
Qed.
Lemma arg_rows_chars args a c : In a args -> In c a -> exists r, In r (arg_rows args) /\ In c r.
Proof.
  induction args as [|b l IH]; [intros []|]. intros [-> | I] Ic.
  - destruct l; [exists a; split; [now left|exact Ic]|]. exists (a ++ T ","). split; [now left|]. apply in_or_app. now left.
  - destruct l as [|d l]; [destruct I|]. destruct (IH I Ic) as (r & Ir & Icr). exists r. split; [right; exact Ir|exact Icr].
Qed.
Lemma access_chars text bits n k c : bit_access text bits -> In (n, k) bits -> In c n -> In c text.
Proof.
  intros (rows & B & E) I Ic. apply (unindent_sub text true). rewrite E. assert (K : exists r, In r rows /\ In c r).
  { destruct B as [before names _|before between bs _ _ _].
    - apply in_combine_l in I. destruct (arg_rows_chars names n c I Ic) as (r & Ir & Icr). exists r. split; [|exact Icr]. unfold call_rows. rewrite !in_app_iff. auto.
    - apply in_map_iff in I as (x & Ex & I). apply pair_equal_spec in Ex as [En _].
      destruct (arg_rows_chars (map (fun x : txt * txt * Z => fst (fst x)) bs) n c) as (r & Ir & Icr); [apply in_map_iff; eauto|exact Ic|]. exists r. split; [|exact Icr]. unfold call_rows. rewrite !in_app_iff. auto 10. }
  destruct K as (r & Ir & Icr). apply in_concat. exists (r ++ [newline]). split; [apply in_map_iff; eauto|]. apply in_or_app. now left.
Qed.
Theorem C64_lost_refuted : exists s text b, set_reachable s /\ declared_bit s 64 (T "Z") b /\ access_code plain_ge s = Ok text /\
  forall bits, bit_access text bits -> forall k, ~ In (T "Z", k) bits.
Proof.
  assert (H : exists s, ex_set5 [("type", "uintvar")] [ex_bit5 [("name", "A"); ("idx", "0")]; ex_bit5 [("name", "Z"); ("idx", "64")]] = Ok s /\
    (exists b, nth_error (s_bits s) 1 = Some (T "Z", b) /\ b_idx b = 64) /\ (exists text, access_code plain_ge s = Ok text /\ in_b "Z"%char text = false)).
  { by_eval E. split; [eexists; split; vm_compute; reflexivity|]. eexists. split; vm_compute; reflexivity. }
  destruct H as (s & E & (b & Hb & Ib) & text & Ht & Nq). exists s, text, b. split; [eapply ex_set5_reach; exact E|]. split; [split; [eapply nth_error_In; exact Hb|exact Ib]|]. split; [exact Ht|].
  intros bits B k I. apply in_b_not in Nq. apply Nq. eapply access_chars; [exact B|exact I|now left].
Qed.
Print Assumptions C64_lost_refuted.
(** display names are written into string literals as they are *)
Theorem C64_quotes_refuted : exists s body, set_reachable s /\ bit_name_body plain_ge s = Ok body /\
  unindent true body = bit_name_code [string_literal (T "say " ++ [ascii_of_nat 34] ++ T "hi")].
Proof.
  assert (H : exists s, ex_set5 [("length", "1")] [ex_bit5 [("name", "A"); ("idx", "0"); ("displayName", "say " ++ quote ++ "hi")%string]] = Ok s /\
    exists b, bit_name_body plain_ge s = Ok b /\ unindent true b = bit_name_code [string_literal (T "say " ++ [ascii_of_nat 34] ++ T "hi")]).
  { by_eval E. eexists. split; vm_compute; reflexivity. }
  destruct H as (s & E & b & Hb & Ub). exists s, b. split; [eapply ex_set5_reach; exact E|auto].
Qed.
Print Assumptions C64_quotes_refuted.
