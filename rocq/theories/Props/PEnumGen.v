(** Generated enum classes. *)
From Coq Require Import Lia Sorted Permutation ZifyBool ZifyNat.
From Verif.Model Require Import Base Common Xml Units Field FieldCommon IntField EnumField GenUtil GenComms CommsInt CommsEnum.
From Verif.Spec Require Import Texts Ints Versions IntSpec EnumSpec GenSpec NameSpec CppSpec CondCode BodySpec EnumCode.
From Verif.Proofs Require Import BaseFacts CommonFacts IntFacts RangeFacts IntInv EnumInv RefFacts GenFacts NameFacts CommsIntFacts CommsOptFacts TemplateFacts WrapFacts CondTextFacts CondMeanFacts ExFacts FactoryFacts EnumTextFacts EnumGenFacts.
From Verif.Props Require Import PInt PEnum PGen PTemplate PComms PCondCode PFlags.
Local Open Scope string_scope. Local Open Scope Z_scope. Local Open Scope list_scope.

(** ** C59 *)
(** a single line of text, as the full name of a field *)
Definition one_line (t : txt) : Prop := t <> [] /\ ~ In newline t /\ ~ In "\"%char t.
Lemma declared_rev s n z : enum_gen s -> (exists v, declared_number s n v z) <-> exists v, In (v, n) (sorted_rev s) /\ z = uns (big_of s) v.
Proof.
  intros G. split.
  - intros (x & I & S). apply stands_uns in S. exists (v_value x). split; [|exact S]. apply sorted_rev_In. eauto.
  - intros (v & I & ->). apply sorted_rev_In in I as (x & I & ->). exists x. split; [exact I|]. now apply stands_uns.
Qed.
Lemma numbers_In s z : enum_gen s -> In z (numbers_of s) <-> exists n v, declared_number s n v z.
Proof.
  intros G. unfold numbers_of. rewrite in_map_iff. split.
  - intros ([v n] & <- & I). destruct (proj2 (declared_rev s n (uns (big_of s) v) G)) as [x D]; eauto.
  - intros (n & x & D). destruct (proj1 (declared_rev s n z G)) as (v & I & ->); [eauto|]. exists (v, n). auto.
Qed.
Lemma existing_iff ge s v n x : enum_gen s -> In (n, x) (en_values s) -> existing ge s (v, n) = true <-> v_since x <= genSchemaVersion (ge_ver ge).
Proof. intros G I. unfold existing. cbn [snd]. destruct (value_In s n x G I) as (-> & _). lia. Qed.
Lemma NoDup_filter_map {A B} (f : A -> B) p l : NoDup (map f l) -> NoDup (map f (filter p l)).
Proof.
  induction l as [|x l IH]; intros N; [constructor|]. inversion N as [|? ? N1 N2]; subst. cbn [filter]. destruct (p x); [|auto]. cbn [map]. constructor; [|auto].
  intros I. apply N1. apply in_map_iff in I as (y & <- & I). apply filter_In in I as [I _]. now apply in_map.
Qed.
(** The generated enum class has exactly the declared values of the generated version with
    their numbers in ascending order, followed by the least and the greatest number and, if
    the type has it, the number behind the greatest one, under names which are still free. *)
Theorem C59_enumerators : forall ge scope c s text, enum_declared s -> plain_docs s -> one_line scope -> enum_def ge scope c s = Ok text ->
  exists vs extra lo hi, enum_class text (genCppIntTypeFor (en_type s) (en_length s)) (vs ++ extra) /\
    (forall n z, In (n, z) vs <-> exists v, declared_number s n v z /\ v_since v <= genSchemaVersion (ge_ver ge)) /\
    StronglySorted Z.le (map snd vs) /\ NoDup (map fst (vs ++ extra)) /\
    (forall n v z, declared_number s n v z -> lo <= z <= hi) /\ (exists n v, declared_number s n v lo) /\ (exists n v, declared_number s n v hi) /\
    extra_values (en_type s) lo hi extra.
Proof.
  intros ge scope c s text D P (Ns & Fs & Ts) H. apply enum_declared_gen in D as G.
  destruct (enum_classes ge scope c s text G P Fs Ts Ns H) as (lo & hi & xs & C & L1 & L2 & L3 & X & Nx & Fx).
  exists (map (enumerator_of s) (filter (existing ge s) (sorted_rev s))), xs, lo, hi. split; [exact C|].
  assert (Names : NoDup (map snd (sorted_rev s))).
  { eapply Permutation_NoDup; [|exact (proj1 (einv_vals s (eg_inv s G)))]. symmetry. etransitivity; [|apply rev_names]. apply Permutation_map, sorted_rev_perm. }
  split; [|split; [|split; [|split; [|split; [|split]]]]].
  - intros n z. rewrite in_map_iff. split.
    + intros ([v m] & E & I). unfold enumerator_of in E. cbn [fst snd] in E. apply pair_equal_spec in E as [-> <-]. apply filter_In in I as [I K].
      apply sorted_rev_In in I as (x & I & ->). exists x. split; [split; [exact I|now apply stands_uns]|]. eapply existing_iff; eauto.
    + intros (x & [I S] & V). exists (v_value x, n). split; [unfold enumerator_of; cbn [fst snd]; apply stands_uns in S; now rewrite S|].
      apply filter_In. split; [apply sorted_rev_In; eauto|]. eapply existing_iff; eauto.
  - rewrite map_map. cbn [enumerator_of snd]. apply (sorted_map (fun x : Z * str => uns (big_of s) (fst x)) Z.le). apply sorted_filter2, sorted_rev_sorted.
  - rewrite map_app. apply NoDup_cat; [|exact Nx|].
    + rewrite map_map. cbn [enumerator_of fst]. apply (NoDup_filter_map snd). exact Names.
    + intros n I J. apply (Fx n J). rewrite map_map in I. cbn [enumerator_of fst] in I. apply in_map_iff in I as ([v m] & <- & I). apply filter_In in I as [I _].
      apply sorted_rev_In in I as (x & I & _). cbn [snd]. apply in_map_iff. exists (m, x). auto.
  - intros n v z Dn. apply L1. apply numbers_In; eauto.
  - apply numbers_In; assumption.
  - apply numbers_In; assumption.
  - exact X.
Qed.
Print Assumptions C59_enumerators.
Lemma value_to_string_Ok s v : in_type (en_type s) v -> uns (big_of s) v <> - 2 ^ 63 -> exists t, value_to_string s v = Ok t.
Proof.
  intros [H1 _] N. unfold value_to_string. destruct (is_big (en_type s) || (0 <? hex_width s)) eqn:E; [eauto|].
  apply orb_false_iff in E as [E _]. unfold big_of in N. rewrite E in N. cbn [uns] in N. destruct (constant_signed v) as (t & Et & _); [unfold is64, int_min, int_max in *; lia|eauto].
Qed.
Lemma mapM_all {A B} (f : A -> res B) l : (forall x, In x l -> exists y, f x = Ok y) -> exists ys, mapM f l = Ok ys.
Proof.
  induction l as [|x l IH]; intros H; [exists []; reflexivity|]. destruct (H x (or_introl eq_refl)) as [y Hy]. destruct IH as [ys Hys]; [intros z I; apply H; now right|].
  exists (y :: ys). cbn [mapM]. rewrite Hy. cbn [bind]. rewrite Hys. reflexivity.
Qed.
Lemma extra_line_Ok s u l v doc : enum_gen s -> (forall f, adjust_first f u = u \/ adjust_first f u = l) -> in_type (en_type s) v -> uns (big_of s) v <> - 2 ^ 63 ->
  exists t, extra_line s u v doc = Ok t.
Proof.
  intros G A It N. unfold extra_line, genAdjustName. pose proof (sorted_rev_nonempty s G) as NE. destruct (sorted_rev s) as [|[v0 f] l0]; [congruence|].
  destruct (free_name_Ok (en_values s) (adjust_first f u)) as [r ->]. cbn [bind]. destruct (value_to_string_Ok s v It N) as [t ->]. cbn [bind]. eauto.
Qed.
(** There is such a definition, unless a value is the least 64-bit number or the greatest one of an
    unsigned 64-bit type is 2^63-1 (the generator computes its successor as a signed number). *)
Theorem C59_generated_partial : forall ge scope c s, enum_declared s -> plain_docs s -> one_line scope ->
  (forall n v z, declared_number s n v z -> z <> - 2 ^ 63) ->
  (is_big (en_type s) = true -> forall n v, declared_number s n v (2 ^ 63 - 1) -> exists n' v' z, declared_number s n' v' z /\ 2 ^ 63 - 1 < z) ->
  exists text, enum_def ge scope c s = Ok text.
Proof.
  intros ge scope c s D P (Ns & Fs & Ts) H1 H2. apply enum_declared_gen in D as G.
  assert (K : forall r, In r (sorted_rev s) -> exists x, In (snd r, x) (en_values s) /\ fst r = v_value x) by (intros [v n] I; apply sorted_rev_In in I; exact I).
  assert (Nm : forall r, In r (sorted_rev s) -> uns (big_of s) (fst r) <> - 2 ^ 63).
  { intros r I. destruct (K r I) as (x & Ix & E). apply (H1 (snd r) x). split; [exact Ix|]. apply stands_uns. now rewrite E. }
  assert (VL : exists a, value_lines ge c s = Ok a).
  { unfold value_lines. match goal with |- context [mapM ?f ?l] => destruct (mapM_all f l) as [ys ->]; [|cbn [bind]; eauto] end.
    intros [v n] I. cbn [fst snd]. pose proof (Nm _ I) as N0. destruct (K _ I) as (x & Ix & E). cbn [fst snd] in *.
    destruct (value_In s n x G Ix) as (-> & Vn & It & V1 & V2). destruct (negb _); [eauto|]. subst v.
    destruct (value_to_string_Ok s _ It N0) as [t Et]. rewrite Et. cbn [bind]. pose proof (number_text s _ t G It Et) as C. destruct (constant_text _ _ C) as (Ft & Hht & _ & Nt).
    destruct (name_text n Vn) as (Fn & Hn & Tn & c0 & n0 & Ec & Nb). unfold plain_docs in P. rewrite Forall_forall in P. pose proof (P _ Ix) as [Td Tq]. cbn [snd] in Td, Tq.
    pose proof never_small. destruct (value_doc_spec ge c n x Tn Td Tq) as (doc & -> & Sd & Tdoc & Nd); [lia|]. cbn [bind].
    destruct (value_rows n t doc _ c0 n0 Ec Nb Fn Hn C Ft Hht Nt Sd Tdoc Nd) as (line & rows & -> & _). cbn [bind]. eauto. }
  assert (XL : exists b, extra_lines s = Ok b).
  { unfold extra_lines. pose proof (sorted_rev_nonempty s G) as NE. destruct (sorted_rev s) as [|[first fn] l] eqn:E; [congruence|]. rewrite <- E in *.
    set (lst := last (sorted_rev s) (0, [])) in *. assert (Il : In lst (sorted_rev s)) by (apply last_In, NE).
    assert (If : In (first, fn) (sorted_rev s)) by (rewrite E; now left).
    assert (Tf : in_type (en_type s) first) by exact (sorted_rev_type s _ G If). assert (Tl : in_type (en_type s) (fst lst)) by exact (sorted_rev_type s _ G Il).
    destruct (extra_line_Ok s (L "FirstValue") _ first (L "First defined value.") G first_names Tf (Nm _ If)) as [t1 ->]. cbn [bind].
    destruct (extra_line_Ok s (L "LastValue") _ (fst lst) (L "Last defined value.") G last_names Tl (Nm _ Il)) as [t2 ->]. cbn [bind].
    destruct (has_limit s (fst lst)) eqn:HL; [|cbn [bind]; eauto]. unfold has_limit in HL. apply Z.ltb_lt in HL.
    assert (Hs : int_min <= fst lst + 1 <= int_max).
    { destruct Tl as [Tl _]. destruct (Z.eq_dec (fst lst) int_max) as [Em|Nm']; [|unfold is64, int_min, int_max in *; lia]. exfalso.
      destruct (is_big (en_type s)) eqn:B.
      - destruct (K lst Il) as (x & Ix & Ev). destruct (H2 eq_refl (snd lst) x) as (n' & v' & z & [Iz Sz] & Lt).
        { split; [exact Ix|]. apply stands_uns. rewrite <- Ev, Em, B. reflexivity. }
        apply stands_uns in Sz. assert (J : In (v_value v', n') (sorted_rev s)) by (apply sorted_rev_In; eauto).
        pose proof (sorted_last _ _ _ (0, []) (fun a => Z.le_refl _) (sorted_rev_sorted s) J) as Le. cbn beta in Le. fold lst in Le. cbn [fst] in Le. unfold big_of in Le.
        rewrite <- Sz, Em, B in Le. change (uns true int_max) with (2 ^ 63 - 1) in Le. lia.
      - rewrite Em in HL. cbn [uns] in HL. destruct (en_type s); try discriminate B; cbn in HL; unfold int_max in HL; lia. }
    rewrite s64_ok by exact Hs. cbn [bind].
    destruct (limit_fits _ _ Tl HL) as [Tn En]; [unfold is64, int_min, int_max in *; lia|].
    destruct (extra_line_Ok s (L "ValuesLimit") _ (fst lst + 1) (L "Upper limit for defined values.") G limit_names Tn) as [t3 ->]; [|cbn [bind]; eauto].
    unfold big_of. rewrite En. destruct Tl as [Tl _]. clear - Tl. unfold uns. destruct (is_big (en_type s)); [pose proof (to_u64_range (fst lst)); lia|unfold is64, int_min in *; lia]. }
  destruct VL as [a Ea], XL as [b Eb]. unfold enum_def, enum_values. rewrite Ea. cbn [bind]. rewrite Eb. cbn [bind]. rewrite list_join.
  change enum_templ with (template_text enum_pieces). rewrite C36_filled; [eauto|exact enum_template|].
  destruct (extra_lines_rows s b G Eb) as (_ & _ & _ & _ & _ & _ & _ & _ & _ & _ & _ & Lb & _).
  intros k I. cbn [holes enum_pieces In] in I. repeat destruct I as [<-|I]; try contradiction; [exact Ns|exact (proj2 (type_text _ _))|].
  refine (join_long (a ++ b) _). rewrite app_length. lia.
Qed.
Print Assumptions C59_generated_partial.
Fixpoint prefix_b (a b : txt) : bool :=
  match a, b with [], _ => true | x :: a', y :: b' => Ascii.eqb x y && prefix_b a' b' | _, [] => false end.
Lemma prefix_b_app a b : prefix_b a (a ++ b) = true.
Proof. induction a as [|x a IH]; [reflexivity|]. cbn. now rewrite Ascii.eqb_refl, IH. Qed.
Lemma extra_name_good u l n : extra_name u l n -> identifier u -> identifier l ->
  forallb (fun k => negb (prefix_b u k) && negb (prefix_b l k)) cpp_keywords = true -> identifier n /\ ~ In n cpp_keywords.
Proof.
  intros (k & E) Iu Il K. 
  assert (Id : forall w, identifier w -> identifier (w ++ repeat "_"%char k)).
  { intros w [[Nw W] (c & Hc & Lc)]. split; [split|].
    - destruct w; [congruence|discriminate].
    - apply Forall_app. split; [exact W|]. apply Forall_forall. intros x I. apply repeat_spec in I. subst x. left. unfold letter_or_underscore. vm_compute. tauto.
    - exists c. destruct w; [congruence|]. split; [exact Hc|exact Lc]. }
  split; [destruct E as [->| ->]; auto|]. intros I. rewrite forallb_forall in K. apply K in I. apply andb_true_iff in I as [K1 K2].
  destruct E as [->| ->]; [rewrite prefix_b_app in K1; discriminate|rewrite prefix_b_app in K2; discriminate].
Qed.
(** Unless the length is variable or a value is named like a keyword of C++, the compiler accepts it. *)
Theorem C59_fits_partial : forall ge scope c s text, enum_declared s -> plain_docs s -> one_line scope -> enum_def ge scope c s = Ok text ->
  is_var (en_type s) = false -> (forall n v, In (n, v) (en_values s) -> ~ In n cpp_keywords) ->
  exists vs, enum_class text (genCppIntTypeFor (en_type s) (en_length s)) vs /\ enum_accepted (genCppIntTypeFor (en_type s) (en_length s)) vs.
Proof.
  intros ge scope c s text D P O H V KW. destruct (C59_enumerators ge scope c s text D P O H) as (vs & xs & lo & hi & C & Iv & _ & N & L0 & L1 & L2 & X).
  exists (vs ++ xs). split; [exact C|]. split; [exact N|]. apply enum_declared_gen in D as G. split.
  { apply Forall_app. split; apply Forall_forall; intros [n z] I; cbn [fst].
    - apply Iv in I as (v & [I _] & _). split; [|eapply KW; exact I]. apply parseIsValidName_spec. apply (value_In s n v G I).
    - assert (K1 : forall n, extra_name (T "FirstValue") (T "firstValue") n -> identifier n /\ ~ In n cpp_keywords)
        by (intros m Em; apply (extra_name_good _ _ _ Em); [apply parseIsValidName_spec; vm_compute; reflexivity|apply parseIsValidName_spec; vm_compute; reflexivity|vm_compute; reflexivity]).
      assert (K2 : forall n, extra_name (T "LastValue") (T "lastValue") n -> identifier n /\ ~ In n cpp_keywords)
        by (intros m Em; apply (extra_name_good _ _ _ Em); [apply parseIsValidName_spec; vm_compute; reflexivity|apply parseIsValidName_spec; vm_compute; reflexivity|vm_compute; reflexivity]).
      assert (K3 : forall n, extra_name (T "ValuesLimit") (T "valuesLimit") n -> identifier n /\ ~ In n cpp_keywords)
        by (intros m Em; apply (extra_name_good _ _ _ Em); [apply parseIsValidName_spec; vm_compute; reflexivity|apply parseIsValidName_spec; vm_compute; reflexivity|vm_compute; reflexivity]).
      inversion X; subst xs; cbn [In] in I; repeat (destruct I as [I|I]; [apply pair_equal_spec in I as [<- _]; auto|]); contradiction. }
  assert (Ty : forall z, type_values (en_type s) z -> cpp_holds (genCppIntTypeFor (en_type s) (en_length s)) z).
  { intros z Tz. unfold type_values in Tz. unfold cpp_holds, genCppIntTypeFor. destruct Tz as [T1 T2]. destruct (en_type s); try discriminate V;
      first [left; eexists; split; [|apply T1; cbn; tauto]; cbn; tauto|right; eexists; split; [|apply T2; cbn; tauto]; cbn; tauto]. }
  assert (Dn : forall n v z, declared_number s n v z -> type_values (en_type s) z).
  { intros n v z [Iz Sz]. destruct (value_In s n v G Iz) as (_ & _ & [I1 I2] & _). apply in_limits_spec in I2 as (w & Sw & Tw); [|exact I1].
    apply stands_uns in Sw, Sz. congruence. }
  apply Forall_app. split; apply Forall_forall; intros [n z] I; cbn [snd]; apply Ty.
  - apply Iv in I as (v & I & _). eapply Dn; eauto.
  - destruct L1 as (n1 & v1 & D1), L2 as (n2 & v2 & D2). inversion X; subst xs; cbn [In] in I; repeat (destruct I as [I|I]; [apply pair_equal_spec in I as [_ <-]|]); try contradiction; eauto.
Qed.
Print Assumptions C59_fits_partial.

(** a schema of version 5 *)
Definition ex_enum5 (attrs : list (string * string)) (children : list node) : res enum_state :=
  let n := Elem (L "enum") (ex_attrs attrs) children in enum_parse ex_env5 (ex_common 0 false) (parseNodeProps n) n None.
Lemma ex_declared a ch s : ex_enum5 a ch = Ok s -> enum_declared s.
Proof. intros H. eapply ed_fresh; [| | |exact H]; [intros ? ? ? K; discriminate K|vm_compute; split; [discriminate|reflexivity]|vm_compute; discriminate]. Qed.
Definition ex_val5 (l : list (string * string)) : node := ex_child "validValue" l.
Lemma plain_docs_dec s : forallb (fun x => forallb (fun c => negb (Ascii.eqb c "\")) (v_description (snd x)) && forallb (fun c => negb (Ascii.eqb c "\")) (v_displayName (snd x))) (en_values s) = true ->
  plain_docs s.
Proof.
  intros H. apply Forall_forall. intros x I. rewrite forallb_forall in H. apply H in I. apply andb_true_iff in I as [A B]. split; apply tame_lit; assumption.
Qed.
Definition ex_scope : txt := T "prot::field::F".
Lemma ex_scope_line : one_line ex_scope.
Proof. split; [discriminate|]. split; apply in_b_not; vm_compute; reflexivity. Qed.
Example C59_ex : exists s, ex_enum5 [("type", "uint8")] [ex_val5 [("name", "off"); ("val", "0"); ("description", "Switched off")];
    ex_val5 [("name", "on"); ("val", "1"); ("deprecated", "4")]; ex_val5 [("name", "lastValue"); ("val", "7"); ("sinceVersion", "5"); ("displayName", "Newest")]] = Ok s /\
  enum_declared s /\ plain_docs s /\
  enum_def plain_ge ex_scope (ex_common 0 false) s = Ok (concat (map (fun r => L r ++ [nl])
   ["/// @brief Values enumerator for"; "///     @ref prot::field::F field."; "enum class ValueType : std::uint8_t"; "{";
    "    off = 0, ///< Switched off "; "    on = 1, ///< value @b on."; "            ///  Deprecated since version 4. "; "    lastValue = 7, ///< value <b>Newest</b>. "; "    ";
    "    // --- Extra values generated for convenience ---"; "    firstValue = 0, ///< First defined value."; "    lastValue_ = 7, ///< Last defined value.";
    "    valuesLimit = 8, ///< Upper limit for defined values."; "};"])).
Proof. by_eval E. split; [exact (ex_declared _ _ _ E)|]. split; [apply plain_docs_dec; vm_compute; reflexivity|]. vm_compute. reflexivity. Qed.
(** the successor of the greatest value is computed as a signed number *)
Theorem C59_generated_refuted : exists s, ex_enum5 [("type", "uint64")] [ex_val5 [("name", "A"); ("val", "9223372036854775807")]] = Ok s /\
  enum_declared s /\ enum_def plain_ge ex_scope (ex_common 0 false) s = UB.
Proof. by_eval E. split; [exact (ex_declared _ _ _ E)|]. vm_compute. reflexivity. Qed.
Print Assumptions C59_generated_refuted.
(** the type of an enum of variable length is chosen by the length, its values may be greater *)
Theorem C59_fits_refuted : exists s text vs, enum_declared s /\ plain_docs s /\ enum_def plain_ge ex_scope (ex_common 0 false) s = Ok text /\
  enum_class text (genCppIntTypeFor (en_type s) (en_length s)) vs /\ ~ enum_accepted (genCppIntTypeFor (en_type s) (en_length s)) vs.
Proof.
  assert (H : exists s, ex_enum5 [("type", "uintvar"); ("length", "2")] [ex_val5 [("name", "A"); ("val", "100000")]] = Ok s /\
    genCppIntTypeFor (en_type s) (en_length s) = T "std::uint16_t" /\ (exists v, en_values s = [(T "A", v)] /\ en_type s = Uintvar /\ v_value v = 100000 /\ v_since v = 0) /\
    plain_docs s /\ exists text, enum_def plain_ge ex_scope (ex_common 0 false) s = Ok text).
  { by_eval E. split; [vm_compute; reflexivity|]. split; [eexists; repeat split; reflexivity|]. split; [apply plain_docs_dec; vm_compute; reflexivity|]. eexists. vm_compute. reflexivity. }
  destruct H as (s & E & Et & (v & Ev & Ety & En & Es) & P & text & Ed). pose proof (ex_declared _ _ _ E) as D.
  destruct (C59_enumerators plain_ge ex_scope (ex_common 0 false) s text D P ex_scope_line Ed) as (vs & xs & lo & hi & C & Iv & _).
  exists s, text, (vs ++ xs). split; [exact D|]. split; [exact P|]. split; [exact Ed|]. split; [exact C|]. intros (_ & _ & F). apply Forall_app in F as [F _].
  assert (I : In (T "A", 100000) vs).
  { apply Iv. exists v. split; [|rewrite Es; vm_compute; discriminate]. split; [rewrite Ev; now left|]. rewrite Ety, En. reflexivity. }
  rewrite Forall_forall in F. apply F in I. cbn [snd] in I. rewrite Et in I. destruct I as [(n & I & B)|(n & I & B)].
  - cbn in I. intuition discriminate.
  - cbn in I. destruct I as [I|[I|[I|[I|[]]]]]; try discriminate I. apply pair_equal_spec in I as [_ <-]. unfold unsigned_bits in B. lia.
Qed.
Print Assumptions C59_fits_refuted.
(** names of values are not checked for keywords *)
Theorem C59_keyword_refuted : exists s text vs, enum_declared s /\ plain_docs s /\ is_var (en_type s) = false /\ enum_def plain_ge ex_scope (ex_common 0 false) s = Ok text /\
  enum_class text (genCppIntTypeFor (en_type s) (en_length s)) vs /\ ~ enum_accepted (genCppIntTypeFor (en_type s) (en_length s)) vs.
Proof.
  assert (H : exists s, ex_enum5 [("type", "uint8")] [ex_val5 [("name", "default"); ("val", "1")]] = Ok s /\ is_var (en_type s) = false /\
    (exists v, en_values s = [(T "default", v)] /\ en_type s = Uint8 /\ v_value v = 1 /\ v_since v = 0) /\
    plain_docs s /\ exists text, enum_def plain_ge ex_scope (ex_common 0 false) s = Ok text).
  { by_eval E. split; [vm_compute; reflexivity|]. split; [eexists; repeat split; reflexivity|]. split; [apply plain_docs_dec; vm_compute; reflexivity|]. eexists. vm_compute. reflexivity. }
  destruct H as (s & E & Et & (v & Ev & Ety & En & Es) & P & text & Ed). pose proof (ex_declared _ _ _ E) as D.
  destruct (C59_enumerators plain_ge ex_scope (ex_common 0 false) s text D P ex_scope_line Ed) as (vs & xs & lo & hi & C & Iv & _).
  exists s, text, (vs ++ xs). split; [exact D|]. split; [exact P|]. split; [exact Et|]. split; [exact Ed|]. split; [exact C|]. intros (_ & F & _). apply Forall_app in F as [F _].
  assert (I : In (T "default", 1) vs).
  { apply Iv. exists v. split; [|rewrite Es; vm_compute; discriminate]. split; [rewrite Ev; now left|]. rewrite Ety, En. reflexivity. }
  rewrite Forall_forall in F. apply F in I. cbn [fst] in I. apply (proj2 I). vm_compute. tauto.
Qed.
Print Assumptions C59_keyword_refuted.
