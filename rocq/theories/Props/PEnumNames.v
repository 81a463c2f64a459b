(** C61: the names of values which generated enum fields report. *)
From Coq Require Import Lia Sorted Permutation ZifyBool ZifyNat.
From Verif.Model Require Import Base Common Xml Units Field FieldCommon IntField EnumField GenUtil GenComms CommsInt CommsEnum.
From Verif.Spec Require Import Texts Ints Versions IntSpec EnumSpec GenSpec NameSpec CppSpec CondCode BodySpec TokenSpec EnumCode.
From Verif.Proofs Require Import BaseFacts CommonFacts IntFacts RangeFacts IntInv EnumInv GenFacts RefFacts TemplateFacts CommsIntFacts CommsOptFacts CondTextFacts CondMeanFacts TokenFacts FactoryFacts EnumTextFacts EnumGenFacts EnumRangeFacts EnumValidFacts.
From Verif.Props Require Import PTexts PInt PTemplate PCondCode PComms PFlags PEnumGen PEnumValid.
Local Open Scope string_scope. Local Open Scope Z_scope. Local Open Scope list_scope.

(** ** The text of the array *)
Definition plain_row (e : txt) : Prop := flat e /\ exists c r, e = c :: r /\ c <> " "%char.
Lemma rows_comma els : els <> [] -> Forall plain_row els -> lay (join (T "," ++ [newline]) els) (join (T "," ++ [newline]) els).
Proof.
  intros N F. induction F as [|e els (Fe & c & r & -> & Nc) F IH]; [congruence|]. destruct els as [|e' els]; [exact (lay_flat c r Fe Nc)|].
  rewrite join_cons2 by discriminate. rewrite <- app_assoc. cbn [app].
  change (lay ((c :: r) ++ T "," ++ newline :: join (T "," ++ [newline]) (e' :: els)) ((c :: r) ++ T "," ++ newline :: join (T "," ++ [newline]) (e' :: els))).
  apply lay_line; [exact (lay_flat c r Fe Nc)|apply flat_dec; reflexivity|]. apply IH. discriminate.
Qed.
Lemma names_text (pairs : bool) els body : els <> [] -> Forall plain_row els ->
  genProcessTemplate (if pairs then pairs_templ else direct_templ) [(L "NAMES", genStrListToString els (L "," ++ [nl]) [])] false = Ok body ->
  unindent true body = map_code pairs els.
Proof.
  intros N F H. rewrite list_join in H. pose proof (rows_comma els N F) as K.
  change (L "," ++ [nl]) with (T "," ++ [newline]) in H. assert (Nj : join (T "," ++ [newline]) els <> []).
  { destruct F as [|e l (_ & c & r & -> & _) F]; [congruence|]. destruct l; discriminate. }
  unfold map_code. set (J := join (T "," ++ [newline]) els) in *. clearbody J.
  set (ps := [Text ((if pairs then T "static const ValueNameInfo Map[] = {" else T "static const char* Map[] = {") ++ [newline] ++ T "    "); Hole (T "NAMES");
    Text ([newline] ++ T "};" ++ [newline] ++ T "static const std::size_t MapSize = std::extent<decltype(Map)>::value;" ++ [newline; newline] ++ T "return std::make_pair(&Map[0], MapSize);")]).
  assert (E : (if pairs then pairs_templ else direct_templ) = template_text ps) by (destruct pairs; reflexivity). rewrite E in H.
  rewrite C36_filled in H.
  2: { unfold ps. constructor; [apply plain_no_hash, in_b_not; destruct pairs; vm_compute; reflexivity|apply name_no_hash, in_b_not; vm_compute; reflexivity|]. constructor. apply end_no_hash, in_b_not. vm_compute. reflexivity. }
  2: { intros k [<-|[]]. exact Nj. }
  apply Ok_inj in H. subst body. unfold ps. cbn [filled]. change (lookup (T "NAMES") [(L "NAMES", J)]) with J. rewrite !app_nil_r.
  set (k := column _). clearbody k. pose proof (lay_indented k J J K) as K2.
  set (D := indented k J) in *. clearbody D.
  assert (U : forall y, unindent true ([newline] ++ y) = newline :: unindent true y) by reflexivity.
  destruct pairs.
  - transitivity (T "static const ValueNameInfo Map[] = {" ++ newline :: unindent true (D ++ ([newline] ++ T "};" ++ [newline] ++ T "static const std::size_t MapSize = std::extent<decltype(Map)>::value;" ++ [newline; newline] ++ T "return std::make_pair(&Map[0], MapSize);"))); [reflexivity|].
    rewrite K2. reflexivity.
  - transitivity (T "static const char* Map[] = {" ++ newline :: unindent true (D ++ ([newline] ++ T "};" ++ [newline] ++ T "static const std::size_t MapSize = std::extent<decltype(Map)>::value;" ++ [newline; newline] ++ T "return std::make_pair(&Map[0], MapSize);"))); [reflexivity|].
    rewrite K2. reflexivity.
Qed.

(** ** The text for a number *)
Lemma display_spec n d : displayed n d (genDisplayName d n).
Proof.
  destruct d as [|c d]; [constructor|]. unfold genDisplayName. destruct (str_eqb (c :: d) (L "_")) eqn:E; [apply str_eqb_eq in E; rewrite E; constructor|]. apply str_eqb_neq in E. constructor; [discriminate|exact E].
Qed.
Lemma unique_sorted l : StronglySorted (fun a b : Z * str => fst a <= fst b) l -> is_unique l = true -> forall v n m, In (v, n) l -> In (v, m) l -> n = m.
Proof.
  induction 1 as [|a l S IH F]; [intros _ ? ? ? []|]. intros U v n m. destruct l as [|b l].
  - intros [A|[]] [B|[]]. congruence.
  - cbn [is_unique] in U. destruct (fst a =? fst b) eqn:E; [discriminate|]. inversion F as [|? ? Fab Fl]; subst. inversion S as [|? ? S1 S2]; subst.
    assert (Lt : forall x, In x (b :: l) -> fst a < fst x).
    { intros x [<-|I]; [lia|]. rewrite Forall_forall in S2. specialize (S2 x I). lia. }
    intros [A|A] [B|B]; [congruence|apply Lt in B; rewrite A in B; cbn [fst] in B; lia|apply Lt in A; rewrite B in A; cbn [fst] in A; lia|].
    eapply IH; eassumption.
Qed.
Lemma not_deprecated_In ver values v l y : not_deprecated_name ver values v l = Some y -> In (v, fst y) l /\ assoc (fst y) values = Some (snd y) /\ ver < v_depr (snd y).
Proof.
  induction l as [|[w n] l IH]; cbn [not_deprecated_name]; [discriminate|]. destruct (w =? v) eqn:E.
  - destruct (assoc n values) as [x|] eqn:A; [|intros H; destruct (IH H); auto using in_cons]. destruct (ver <? v_depr x) eqn:D.
    + intros H. injection H as <-. cbn [fst snd]. assert (w = v) by lia. subst w. split; [now left|]. split; [exact A|lia].
    + intros H. destruct (IH H) as [I K]. split; [now right|exact K].
  - intros H. destruct (IH H) as [I K]. split; [now right|exact K].
Qed.
Lemma not_deprecated_None ver values v l n x : not_deprecated_name ver values v l = None -> In (v, n) l -> assoc n values = Some x -> v_depr x <= ver.
Proof.
  induction l as [|[w m] l IH]; cbn [not_deprecated_name]; [intros _ []|]. intros H [E|I] A.
  - apply pair_equal_spec in E as [-> ->]. rewrite Z.eqb_refl, A in H. destruct (ver <? v_depr x) eqn:D; [discriminate|lia].
  - destruct (if w =? v then assoc m values else None) as [y|]; [|auto]. destruct (ver <? v_depr y); [discriminate|auto].
Qed.
Lemma shown_spec ge s v n : enum_gen s -> en_nonUnique s = true \/ distinct_numbers s -> In (v, n) (rev_values s) ->
  exists t, shown_name ge s v n = Ok (string_literal t) /\ shows (genSchemaVersion (ge_ver ge)) s (uns (big_of s) v) (Some t).
Proof.
  intros G U I. apply rev_In in I as I0. destruct I0 as (x & Ix & ->). destruct (value_In s n x G Ix) as (A & _ & [R _] & _).
  set (ver := genSchemaVersion (ge_ver ge)). set (z := uns (big_of s) (v_value x)).
  assert (Dx : declared_number s n x z) by (split; [exact Ix|now apply stands_uns]).
  assert (Same : forall m y, declared_number s m y z -> v_value y = v_value x /\ In (v_value x, m) (rev_values s)).
  { intros m y [Iy Sy]. apply stands_uns in Sy. fold (big_of s) in Sy. destruct (value_In s m y G Iy) as (_ & _ & [Ry _] & _).
    assert (v_value y = v_value x) as E.
    { apply (as_cmp_inj (big_of s)); [exact Ry|exact R|]. rewrite <- !uns_cmp by assumption. symmetry. exact Sy. }
    split; [exact E|]. apply rev_In. exists y. auto. }
  assert (One : forall m y, assoc m (en_values s) = Some y -> In (v_value x, m) (rev_values s) -> ((exists m' y', declared_number s m' y' z /\ ver < v_depr y') -> ver < v_depr y) ->
    shows ver s z (Some (genDisplayName (v_displayName y) m))).
  { intros m y Am Im P. exists m, y. split; [|split; [apply display_spec|exact P]]. apply assoc_In in Am. apply rev_In in Im as (y' & Iy' & Ev).
    destruct (value_In s m y G Am) as (A1 & _). destruct (value_In s m y' G Iy') as (A2 & _). assert (y' = y) as -> by congruence.
    split; [exact Am|]. apply stands_uns. rewrite <- Ev. reflexivity. }
  unfold shown_name. rewrite A. cbn [fst snd]. fold ver. destruct (negb (en_nonUnique s) || (ver <? v_depr x) || is_unique (rev_values s)) eqn:E.
  - eexists. split; [reflexivity|]. apply One; [exact A|exact I|]. intros (m & y & Dy & P). apply orb_true_iff in E as [E|E]; [apply orb_true_iff in E as [E|E]|].
    + destruct U as [U|U]; [rewrite U in E; discriminate|]. rewrite <- (U _ _ _ _ _ Dy Dx) in A. destruct Dy as [Iy _]. destruct (value_In s m y G Iy) as (A2 & _). assert (y = x) as -> by congruence. exact P.
    + lia.
    + destruct (Same m y Dy) as [_ Im]. rewrite (unique_sorted _ (rev_sorted s) E _ _ _ I Im) in A. destruct Dy as [Iy _]. destruct (value_In s m y G Iy) as (A2 & _). assert (y = x) as -> by congruence. exact P.
  - destruct (not_deprecated_name ver (en_values s) (v_value x) (rev_values s)) as [[m y]|] eqn:E2.
    + apply not_deprecated_In in E2 as (Im & Am & P). cbn [fst snd] in *. eexists. split; [reflexivity|]. now apply One.
    + eexists. split; [reflexivity|]. apply One; [exact A|exact I|]. intros (m & y & Dy & P). destruct (Same m y Dy) as [_ Im]. destruct Dy as [Iy _]. destruct (value_In s m y G Iy) as (A2 & _).
      pose proof (not_deprecated_None _ _ _ _ _ _ E2 Im A2). lia.
Qed.

(** ** Selected by index *)
Lemma direct_spec ge s : forall l next els, StronglySorted (fun a b : Z * str => fst a <= fst b) l -> direct_names ge s next l = Ok els ->
  (forall k e, nth_error els k = Some e ->
     (e = L "nullptr" /\ forall n, ~ In (next + Z.of_nat k, n) l) \/ (exists n, In (next + Z.of_nat k, n) l /\ shown_name ge s (next + Z.of_nat k) n = Ok e)) /\
  (forall v n, In (v, n) l -> next <= v -> v - next < Z.of_nat (length els)).
Proof.
  induction l as [|[v n] l IH]; intros next els S H; cbn [direct_names] in H.
  { apply Ok_inj in H. subst els. split; [intros [|k] e; discriminate|intros v n []]. }
  inversion S as [|? ? S1 S2]; subst. rewrite Forall_forall in S2. cbn [fst] in S2. destruct (v <? next) eqn:E.
  - destruct (IH next els S1 H) as [A B]. split.
    + intros k e K. destruct (A k e K) as [[-> N]|(m & I & Hm)]; [left|right].
      * split; [reflexivity|]. intros m [J|J]; [apply pair_equal_spec in J as [J _]; lia|exact (N m J)].
      * exists m. split; [now right|exact Hm].
    + intros w m [J|J] L0; [apply pair_equal_spec in J as [<- <-]; lia|eauto].
  - apply bind_Ok in H as (t & Ht & H). apply bind_Ok in H as (rest & Hr & H). apply Ok_inj in H. subst els.
    destruct (IH (v + 1) rest S1 Hr) as [A B]. set (g := Z.to_nat (v - next)) in *. assert (Eg : Z.of_nat g = v - next) by (unfold g; lia). clearbody g. split.
    + intros k e K. destruct (lt_eq_lt_dec k g) as [[Lt|Eq]|Gt].
      * left. rewrite nth_error_app1 in K by (rewrite repeat_length; exact Lt). apply nth_error_In, repeat_spec in K. split; [exact K|].
        intros m [J|J]; [apply pair_equal_spec in J as [J _]; lia|apply S2 in J; cbn [fst] in J; lia].
      * subst k. right. rewrite nth_error_app2, repeat_length, Nat.sub_diag in K by (rewrite repeat_length; lia). cbn [nth_error] in K. injection K as <-.
        exists n. assert (next + Z.of_nat g = v) as -> by lia. split; [now left|exact Ht].
      * rewrite nth_error_app2, repeat_length in K by (rewrite repeat_length; lia). destruct (k - g)%nat as [|j] eqn:Ej; [lia|]. cbn [nth_error] in K.
        assert (next + Z.of_nat k = v + 1 + Z.of_nat j) as -> by lia. destruct (A j e K) as [[-> N]|(m & I & Hm)]; [left|right].
        -- split; [reflexivity|]. intros m [J|J]; [apply pair_equal_spec in J as [J _]; lia|exact (N m J)].
        -- exists m. split; [now right|exact Hm].
    + intros w m J L0. rewrite app_length, repeat_length. cbn [length]. destruct J as [J|J]; [apply pair_equal_spec in J as [<- <-]; lia|].
      pose proof (S2 _ J) as Q. cbn [fst] in Q. destruct (Z.eq_dec w v); [lia|]. specialize (B w m J ltac:(lia)). lia.
Qed.
Lemma shows_plain ver s v t : enum_gen s -> plain_names s -> shows ver s v (Some t) -> flat t.
Proof.
  intros G P (n & d & [I _] & D & _). remember (v_displayName d) as dn eqn:Ed. destruct D as [| |d' N1 N2].
  - destruct (value_In s n d G I) as (_ & V & _). apply name_text in V. apply V.
  - intros [].
  - unfold plain_names in P. rewrite Forall_forall in P. specialize (P _ I). cbn [snd] in P. rewrite <- Ed in P. intros J. apply (P newline J). now left.
Qed.
Lemma literal_plain t : flat t -> plain_row (string_literal t).
Proof.
  intros F. split; [|exists (ascii_of_nat 34), (t ++ [ascii_of_nat 34]); split; [reflexivity|discriminate]].
  unfold string_literal. apply (flat_app [ascii_of_nat 34]); [apply flat_dec; reflexivity|]. apply flat_app; [exact F|apply flat_dec; reflexivity].
Qed.
Lemma nonneg_uns big v : 0 <= v -> is64 v -> uns big v = v.
Proof. intros H I. unfold uns. destruct big; [now apply to_u64_small|reflexivity]. Qed.
Lemma direct_nonneg s v n : direct_mapping s = true -> In (v, n) (rev_values s) -> 0 <= v.
Proof.
  unfold direct_mapping. pose proof (rev_sorted s) as S. intros H I. destruct (rev_values s) as [|[f m] l]; [destruct I|].
  destruct (f <? 0) eqn:E; [discriminate|]. pose proof (sorted_head _ (f, m) l (v, n) (fun a => Z.le_refl _) S I) as Q. cbn [fst] in Q. lia.
Qed.
(** The name which is reported for a number is the one of a declared value with this number, preferably of one which
    is not deprecated; no name is reported for other numbers.  This version of the code selects it by index ... *)
Theorem C61_by_index_partial : forall ge s body, enum_declared s -> plain_names s -> en_nonUnique s = true \/ distinct_numbers s ->
  direct_mapping s = true -> names_map_body ge s = Ok body ->
  tokens (value_name_body s) = tokens by_index_code /\
  exists elems, unindent true body = map_code false elems /\
    forall v, exists t, direct_name elems v t /\ shows (genSchemaVersion (ge_ver ge)) s v t.
Proof.
  intros ge s body D P U Dm H. apply enum_declared_gen in D as G. split; [unfold value_name_body; rewrite Dm; vm_compute; reflexivity|].
  unfold names_map_body in H. rewrite Dm in H. apply bind_Ok in H as (els & He & H). destruct (direct_spec ge s _ _ _ (rev_sorted s) He) as [A B].
  assert (Val : forall v n, In (v, n) (rev_values s) -> 0 <= v /\ uns (big_of s) v = v).
  { intros v n I. pose proof (direct_nonneg s v n Dm I) as Q. split; [exact Q|]. apply nonneg_uns; [exact Q|]. apply rev_In in I as (x & I & ->). apply (value_In s n x G I). }
  assert (Sh : forall k e, nth_error els k = Some e -> exists t, e = element t /\ shows (genSchemaVersion (ge_ver ge)) s (Z.of_nat k) t).
  { intros k e K. destruct (A k e K) as [[-> N]|(n & I & E)]; rewrite Z.add_0_l in *.
    - exists None. split; [reflexivity|]. intros n d [Id Sd]. apply stands_uns in Sd. fold (big_of s) in Sd. assert (Ir : In (v_value d, n) (rev_values s)) by (apply rev_In; eauto).
      destruct (Val _ _ Ir) as [_ Q]. rewrite Q in Sd. rewrite <- Sd in Ir. exact (N n Ir).
    - destruct (shown_spec ge s _ n G U I) as (t & Et & St). rewrite Et in E. apply Ok_inj in E. exists (Some t). split; [symmetry; exact E|]. destruct (Val _ _ I) as [_ Q]. now rewrite Q in St. }
  assert (In_len : forall n d v, declared_number s n d v -> 0 <= v < Z.of_nat (length els)).
  { intros n d v [Id Sd]. apply stands_uns in Sd. fold (big_of s) in Sd. assert (Ir : In (v_value d, n) (rev_values s)) by (apply rev_In; eauto).
    destruct (Val _ _ Ir) as [Q1 Q]. rewrite Q in Sd. subst v. specialize (B _ n Ir ltac:(lia)). lia. }
  exists els. split.
  - apply (names_text false); [| |exact H].
    + intros ->. pose proof (einv_nonempty _ (eg_inv _ G)) as N. destruct (en_values s) as [|[n d] l] eqn:Ev; [congruence|].
      specialize (In_len n d (uns (big_of s) (v_value d))). cbn [length] in In_len. destruct In_len; [|lia]. split; [rewrite Ev; now left|now apply stands_uns].
    + apply Forall_forall. intros e I. apply In_nth_error in I as [k K]. destruct (Sh k e K) as ([t|] & -> & St); cbn [element].
      * apply literal_plain. eapply shows_plain; eassumption.
      * split; [apply flat_dec; reflexivity|]. exists "n"%char, (T "ullptr"). split; [reflexivity|discriminate].
  - intros v. destruct (Z_lt_dec v 0) as [Lo|Lo]; [|destruct (Z_le_dec (Z.of_nat (length els)) v) as [Hi|Hi]].
    + exists None. split; [now constructor 1; left|]. intros n d Dn. apply In_len in Dn. lia.
    + exists None. split; [now constructor 1; right|]. intros n d Dn. apply In_len in Dn. lia.
    + destruct (nth_error els (Z.to_nat v)) as [e|] eqn:K; [|apply nth_error_None in K; lia].
      destruct (Sh _ _ K) as (t & -> & St). exists t. split; [constructor 2; [lia|exact K]|]. assert (Z.of_nat (Z.to_nat v) = v) as Q by lia. now rewrite Q in St.
Qed.
Print Assumptions C61_by_index_partial.

(** ** Searched in a sorted array *)
Definition entry_of (k : Z -> Z) (e : Z * str * txt) : txt * Z * txt := (snd (fst e), k (fst (fst e)), snd e).
Lemma pair_spec ge s (k : Z -> Z) (Kinj : forall a b, is64 a -> is64 b -> k a = k b -> a = b) : forall l prev els,
  StronglySorted (fun a b : Z * str => k (fst a) <= k (fst b)) l -> Forall (fun a => is64 (fst a)) l ->
  (forall p, prev = Some p -> is64 p /\ Forall (fun a => k p <= k (fst a)) l) ->
  (forall v n, In (v, n) l -> exists t, shown_name ge s v n = Ok (string_literal t)) ->
  pair_names ge s prev l = Ok els ->
  exists es, els = map (fun e => pair_element (snd (fst e)) (snd e)) es /\ (forall e, In e es -> In (fst e) l /\ shown_name ge s (fst (fst e)) (snd (fst e)) = Ok (string_literal (snd e))) /\
    StronglySorted Z.lt (map (fun e => k (fst (fst e))) es) /\ (forall p, prev = Some p -> Forall (fun z => k p < z) (map (fun e => k (fst (fst e))) es)) /\
    (forall v n, In (v, n) l -> prev = Some v \/ In v (map (fun e => fst (fst e)) es)).
Proof.
  induction l as [|[v n] l IH]; intros prev els S R P Sh H; cbn [pair_names] in H.
  { apply Ok_inj in H. subst els. exists []. split; [reflexivity|]. split; [intros e []|]. split; [constructor|]. split; [constructor|intros v n []]. }
  inversion S as [|? ? S1 S2]; subst. inversion R as [|? ? R1 R2]; subst. cbn [fst] in *. destruct (match prev with Some p => p =? v | None => false end) eqn:E.
  - destruct prev as [p|]; [|discriminate]. assert (p = v) by lia. subst p.
    destruct (IH (Some v) els S1 R2) as (es & E1 & E2 & E3 & E4 & E5); [intros p Ep; injection Ep as <-; auto|intros w m J; apply (Sh w m); now right|exact H|].
    exists es. split; [exact E1|]. split; [intros e I; destruct (E2 e I); split; [now right|assumption]|]. split; [exact E3|]. split; [exact E4|].
    intros w m [J|J]; [apply pair_equal_spec in J as [<- _]; now left|exact (E5 w m J)].
  - apply bind_Ok in H as (q & Hq & H). apply bind_Ok in H as (rest & Hr & H). apply Ok_inj in H. subst els.
    destruct (Sh v n (or_introl eq_refl)) as (t & Ht). rewrite Ht in Hq. apply Ok_inj in Hq. subst q.
    destruct (IH (Some v) rest S1 R2) as (es & E1 & E2 & E3 & E4 & E5); [intros p Ep; injection Ep as <-; auto|intros w m J; apply (Sh w m); now right|exact Hr|].
    exists ((v, n, t) :: es). cbn [map fst snd]. specialize (E4 v eq_refl). split; [now rewrite E1|]. split; [intros e [<-|I]; [split; [now left|exact Ht]|destruct (E2 e I); split; [now right|assumption]]|].
    split; [now constructor|]. split.
    + intros p ->. destruct (P p eq_refl) as [Rp Fp]. inversion Fp as [|? ? F1 F2]; subst. cbn [fst] in F1.
      assert (k p <> k v) as Nk by (intros Q; apply Kinj in Q; [lia|assumption|assumption]). constructor; [lia|]. eapply Forall_impl; [|exact E4]. cbn. lia.
    + intros w m [J|J]; [apply pair_equal_spec in J as [<- _]; right; now left|]. destruct (E5 w m J) as [Q|Q]; [injection Q as <-; right; now left|right; now right].
Qed.
(** the order of the array is the one of the numbers *)
Definition orderly (s : enum_state) : Prop := en_type s <> Uintvar \/ 8 <= en_length s \/ (forall n d z, declared_number s n d z -> z < 2 ^ 63).
Lemma pair_order_sorted s : enum_gen s -> orderly s -> StronglySorted (fun a b : Z * str => uns (big_of s) (fst a) <= uns (big_of s) (fst b)) (pair_order s).
Proof.
  intros G O. unfold pair_order. assert (Sg : forall (l : list (Z * str)), (forall a, In a l -> uns (big_of s) (fst a) = fst a) -> StronglySorted (fun a b : Z * str => fst a <= fst b) l ->
    StronglySorted (fun a b : Z * str => uns (big_of s) (fst a) <= uns (big_of s) (fst b)) l).
  { clear. intros l K S. induction S as [|a l S IH F]; [constructor|]. constructor; [apply IH; intros; apply K; now right|].
    rewrite Forall_forall in *. intros b I. rewrite !K by (cbn; auto). auto. }
  unfold big_of in *. destruct (pairs_big s) eqn:Pb.
  - assert (is_big (en_type s) = true) as -> by (unfold pairs_big in Pb; destruct (en_type s); try discriminate; reflexivity).
    exact (key_sorted (fun a : Z * str => to_u64 (fst a)) _).
  - apply Sg; [|exact (rev_sorted s)]. intros [v n] I. cbn [fst]. unfold pairs_big in Pb. destruct (en_type s) eqn:Et; try reflexivity; [discriminate|].
    destruct O as [O|[O|O]]; [congruence|lia|]. apply rev_In in I as (x & I & ->). destruct (value_In s n x G I) as (_ & _ & [R _] & _).
    specialize (O n x (uns true (v_value x))). cbn [is_big uns] in *. assert (L0 : to_u64 (v_value x) < 2 ^ 63) by (apply O; split; [exact I|rewrite Et; apply stands_uns; reflexivity]).
    unfold is64, int_min, int_max in R. unfold to_u64, two64 in *. destruct (Z.ltb_spec (v_value x) 0) as [N|N].
    + exfalso. replace (v_value x) with ((v_value x + 18446744073709551616) + (-1) * 18446744073709551616) in L0 by lia. rewrite Z.mod_add, Z.mod_small in L0 by lia. lia.
    + apply Z.mod_small. lia.
Qed.
(** ... and otherwise searches for it, if the enumerators of all values are generated *)
Theorem C61_by_search_partial : forall ge s body, enum_declared s -> plain_names s -> en_nonUnique s = true \/ distinct_numbers s -> orderly s ->
  direct_mapping s = false -> names_map_body ge s = Ok body ->
  (forall n d z, declared_number s n d z -> v_since d <= genSchemaVersion (ge_ver ge)) ->
  tokens (value_name_body s) = tokens by_search_code /\
  exists elems, unindent true body = map_code true elems /\
    forall vs, (forall n z, In (n, z) vs <-> exists d, declared_number s n d z /\ v_since d <= genSchemaVersion (ge_ver ge)) ->
    forall v, exists t, searched_name vs elems v t /\ shows (genSchemaVersion (ge_ver ge)) s v t.
Proof.
  intros ge s body D P U O Dm H Hv. apply enum_declared_gen in D as G. split; [unfold value_name_body; rewrite Dm; vm_compute; reflexivity|].
  unfold names_map_body in H. rewrite Dm in H. apply bind_Ok in H as (els & He & H).
  assert (Po : forall v n, In (v, n) (pair_order s) <-> In (v, n) (rev_values s)).
  { intros v n. unfold pair_order. destruct (pairs_big s); [apply sort_In|tauto]. }
  assert (Kinj : forall a b, is64 a -> is64 b -> uns (big_of s) a = uns (big_of s) b -> a = b).
  { intros a b Ha Hb. rewrite !uns_cmp by assumption. now apply as_cmp_inj. }
  assert (Is : forall v n, In (v, n) (rev_values s) -> is64 v) by (intros v n I; apply rev_In in I as (x & I & ->); apply (value_In s n x G I)).
  destruct (pair_spec ge s (uns (big_of s)) Kinj (pair_order s) None els) as (es & E1 & E2 & E3 & _ & E5); [now apply pair_order_sorted| |discriminate| |exact He|].
  { apply Forall_forall. intros [v n] I. apply Po in I. exact (Is v n I). }
  { intros v n I. apply Po in I. destruct (shown_spec ge s v n G U I) as (t & Et & _). eauto. }
  assert (Sh : forall v n t, In (v, n, t) es -> In (v, n) (rev_values s) /\ shows (genSchemaVersion (ge_ver ge)) s (uns (big_of s) v) (Some t)).
  { intros v n t I. destruct (E2 _ I) as [J Et]. cbn [fst snd] in *. apply Po in J. split; [exact J|]. destruct (shown_spec ge s v n G U J) as (t' & Et' & St).
    rewrite Et in Et'. apply Ok_inj in Et'. injection Et' as Et'. apply app_inv_tail in Et'. now subst t'. }
  assert (Dec : forall v n, In (v, n) (rev_values s) -> exists d, declared_number s n d (uns (big_of s) v)).
  { intros v n I. apply rev_In in I as (x & I & ->). exists x. split; [exact I|now apply stands_uns]. }
  assert (All : forall n d z, declared_number s n d z -> In z (map (fun e => uns (big_of s) (fst (fst e))) es)).
  { intros n d z [Id Sd]. apply stands_uns in Sd. fold (big_of s) in Sd. subst z. assert (I : In (v_value d, n) (pair_order s)) by (apply Po, rev_In; eauto).
    destruct (E5 _ _ I) as [Q|Q]; [discriminate|]. apply in_map_iff in Q as (e & Ee & Ie). apply in_map_iff. exists e. split; [now rewrite Ee|exact Ie]. }
  exists els. split.
  - apply (names_text true); [| |exact H].
    + intros ->. pose proof (einv_nonempty _ (eg_inv _ G)) as N. destruct (en_values s) as [|[n d] l] eqn:Ev; [congruence|].
      specialize (All n d (uns (big_of s) (v_value d))). destruct es; [|discriminate E1]. apply All. split; [rewrite Ev; now left|now apply stands_uns].
    + subst els. apply Forall_forall. intros e I. apply in_map_iff in I as ([[v n] t] & <- & I). cbn [fst snd]. destruct (Sh v n t I) as [J St]. apply rev_In in J as (x & Ix & _).
      destruct (value_In s n x G Ix) as (_ & V & _). destruct (name_text n V) as (Fn & _). split; [|exists "s"%char; eexists; split; [reflexivity|discriminate]].
      unfold pair_element. apply flat_app; [apply flat_dec; reflexivity|]. apply flat_app; [exact Fn|]. apply flat_app; [apply flat_dec; reflexivity|].
      apply flat_app; [apply literal_plain; eapply shows_plain; eassumption|apply flat_dec; reflexivity].
  - intros vs Hvs v.
    assert (Entries : forall n z t, In (n, z, t) (map (entry_of (uns (big_of s))) es) <-> exists w, In (w, n, t) es /\ z = uns (big_of s) w).
    { intros n z t. rewrite in_map_iff. split.
      - intros ([[w m] u] & E & I). unfold entry_of in E. cbn [fst snd] in E. apply pair_equal_spec in E as [E <-]. apply pair_equal_spec in E as [<- <-]. eauto.
      - intros (w & I & ->). exists (w, n, t). auto. }
    assert (Keys : map (fun x : txt * Z * txt => snd (fst x)) (map (entry_of (uns (big_of s))) es) = map (fun e => uns (big_of s) (fst (fst e))) es).
    { rewrite map_map. apply map_ext. intros [[w m] u]. reflexivity. }
    assert (Any : forall t, match t with None => ~ In v (map (fun x : txt * Z * txt => snd (fst x)) (map (entry_of (uns (big_of s))) es)) | Some u => exists n, In (n, v, u) (map (entry_of (uns (big_of s))) es) end ->
      searched_name vs els v t).
    { intros t Q. exists (map (entry_of (uns (big_of s))) es). split; [rewrite map_map; subst els; apply map_ext; intros [[w m] u]; reflexivity|]. split; [|split; [rewrite Keys; exact E3|exact Q]].
      intros n z u I. apply Entries in I as (w & I & ->). destruct (Sh _ _ _ I) as [J _]. destruct (Dec _ _ J) as (d & Dd). apply Hvs. exists d. split; [exact Dd|]. eapply Hv; eassumption. }
    destruct (in_dec Z.eq_dec v (map (fun e => uns (big_of s) (fst (fst e))) es)) as [I|I].
    + apply in_map_iff in I as ([[w n] u] & Ew & I). cbn [fst] in Ew. subst v. exists (Some u). split; [|exact (proj2 (Sh _ _ _ I))]. apply Any. exists n. apply Entries. eauto.
    + exists None. split; [apply Any; now rewrite Keys|]. intros n d Dd. apply I. eapply All; eassumption.
Qed.
Print Assumptions C61_by_search_partial.

(** ** Examples *)
Lemma plain_names_dec s : forallb (fun x => forallb (fun c => negb (Ascii.eqb c newline) && negb (Ascii.eqb c "\") && negb (Ascii.eqb c (ascii_of_nat 34))) (v_displayName (snd x))) (en_values s) = true ->
  plain_names s.
Proof.
  intros H. apply Forall_forall. intros x I c J. rewrite forallb_forall in H. apply H in I. rewrite forallb_forall in I. apply I in J.
  apply andb_true_iff in J as [J J3]. apply andb_true_iff in J as [J1 J2]. apply negb_true_iff, Ascii.eqb_neq in J1, J2, J3. intros [E|[E|[E|[]]]]; congruence.
Qed.
Lemma distinct_dec s : enum_gen s -> is_unique (rev_values s) = true -> distinct_numbers s.
Proof.
  intros G U n d n' d' z [I S] [I' S']. apply stands_uns in S, S'. destruct (value_In s n d G I) as (_ & _ & [R _] & _). destruct (value_In s n' d' G I') as (_ & _ & [R' _] & _).
  assert (v_value d = v_value d') as E by (apply (as_cmp_inj (is_big (en_type s))); [exact R|exact R'|rewrite <- (uns_cmp _ _ R), <- (uns_cmp _ _ R'), <- S; exact S']).
  apply (unique_sorted _ (rev_sorted s) U (v_value d)); apply rev_In; eauto.
Qed.
Definition quote : string := String (ascii_of_nat 34) EmptyString.
Definition row_texts (rows : list string) : txt := join [nl] (map (fun r => T r) rows).
Example C61_ex_index : exists s, ex_enum5 [("type", "uint8"); ("nonUniqueAllowed", "true")]
    [ex_val5 [("name", "A"); ("val", "0"); ("deprecated", "3")]; ex_val5 [("name", "B"); ("val", "0"); ("displayName", "Zero")]; ex_val5 [("name", "C"); ("val", "2")]] = Ok s /\
  enum_declared s /\ plain_names s /\ en_nonUnique s = true /\ direct_mapping s = true /\
  names_map_body plain_ge s = Ok (row_texts ["static const char* Map[] = {"; "    " ++ quote ++ "Zero" ++ quote ++ ","; "    nullptr,"; "    " ++ quote ++ "C" ++ quote; "};";
    "static const std::size_t MapSize = std::extent<decltype(Map)>::value;"; ""; "return std::make_pair(&Map[0], MapSize);"])%string.
Proof. by_eval E. split; [exact (ex_declared _ _ _ E)|]. split; [apply plain_names_dec; vm_compute; reflexivity|]. vm_compute. auto. Qed.
Example C61_ex_search : exists s, ex_enum5 [("type", "int8")] [ex_val5 [("name", "A"); ("val", "-1")]; ex_val5 [("name", "B"); ("val", "100"); ("displayName", "Hundred")]] = Ok s /\
  enum_declared s /\ plain_names s /\ distinct_numbers s /\ orderly s /\ direct_mapping s = false /\ (forall n d z, declared_number s n d z -> v_since d <= genSchemaVersion (ge_ver plain_ge)) /\
  names_map_body plain_ge s = Ok (row_texts ["static const ValueNameInfo Map[] = {"; "    std::make_pair(ValueType::A, " ++ quote ++ "A" ++ quote ++ "),";
    "    std::make_pair(ValueType::B, " ++ quote ++ "Hundred" ++ quote ++ ")"; "};";
    "static const std::size_t MapSize = std::extent<decltype(Map)>::value;"; ""; "return std::make_pair(&Map[0], MapSize);"])%string.
Proof.
  by_eval E. pose proof (ex_declared _ _ _ E) as D. split; [exact D|]. apply enum_declared_gen in D. split; [apply plain_names_dec; vm_compute; reflexivity|].
  split; [apply (distinct_dec _ D); vm_compute; reflexivity|]. clear D E. split; [left; discriminate|]. split; [vm_compute; reflexivity|]. split; [|vm_compute; reflexivity].
  intros n d z [I _]. cbn [en_values In] in I. destruct I as [I|[I|[]]]; apply pair_equal_spec in I as [_ <-]; vm_compute; discriminate.
Qed.
(** display names are written into string literals as they are *)
Theorem C61_quotes_refuted : exists s elems body, enum_declared s /\ names_map_body plain_ge s = Ok body /\ unindent true body = map_code false elems /\
  In (string_literal (T "say " ++ [ascii_of_nat 34] ++ T "hi")) elems.
Proof.
  assert (H : exists s, ex_enum5 [("type", "uint8")] [ex_val5 [("name", "A"); ("val", "0"); ("displayName", "say " ++ quote ++ "hi")%string]] = Ok s /\
    exists b, names_map_body plain_ge s = Ok b /\ unindent true b = map_code false [string_literal (T "say " ++ [ascii_of_nat 34] ++ T "hi")]).
  { by_eval E. eexists. split; vm_compute; reflexivity. }
  destruct H as (s & E & b & Hb & Ub). exists s, [string_literal (T "say " ++ [ascii_of_nat 34] ++ T "hi")], b. split; [exact (ex_declared _ _ _ E)|]. split; [exact Hb|]. split; [exact Ub|now left].
Qed.
Print Assumptions C61_quotes_refuted.
(** a field which reuses one with repeated numbers may forbid them: then the first name counts, deprecated or not *)
Definition ex_renewed : res enum_state :=
  match ex_enum5 [("type", "uint8"); ("nonUniqueAllowed", "true")] [ex_val5 [("name", "A"); ("val", "0"); ("deprecated", "3")]; ex_val5 [("name", "B"); ("val", "0")]] with
  | Ok o => let n := Elem (L "enum") (ex_attrs [("nonUniqueAllowed", "false")]) [] in enum_parse ex_env5 (ex_common 0 false) (parseNodeProps n) n (Some o)
  | r => r
  end.
Lemma renewed_declared s : ex_renewed = Ok s -> enum_declared s.
Proof.
  unfold ex_renewed. destruct (ex_enum5 _ _) as [o| |] eqn:E; [|intros H; discriminate H|intros H; discriminate H]. intros H. apply ex_declared in E.
  eapply ed_reuse; [| | |exact E|exact H]; [intros ? ? ? K; discriminate K|vm_compute; split; [discriminate|reflexivity]|vm_compute; discriminate].
Qed.
Theorem C61_deprecated_refuted : exists s body t, enum_declared s /\ plain_names s /\ names_map_body plain_ge s = Ok body /\
  unindent true body = map_code false [element (Some t)] /\ ~ shows (genSchemaVersion (ge_ver plain_ge)) s 0 (Some t).
Proof.
  assert (H : exists s, ex_renewed = Ok s /\ plain_names s /\ (exists b, names_map_body plain_ge s = Ok b /\ unindent true b = map_code false [element (Some (T "A"))]) /\
    exists x y, en_values s = [(T "A", x); (T "B", y)] /\ en_type s = Uint8 /\ v_value x = 0 /\ v_value y = 0 /\ v_depr x = 3 /\ v_depr y = never /\ v_displayName y = []).
  { by_eval E. split; [apply plain_names_dec; vm_compute; reflexivity|]. split; [eexists; split; vm_compute; reflexivity|]. eexists. eexists. split; [reflexivity|]. vm_compute. auto 10. }
  destruct H as (s & E & P & (b & Hb & Ub) & x & y & Ev & Et & Vx & Vy & Dx & Dy & Ny). exists s, b, (T "A"). split; [exact (renewed_declared s E)|]. split; [exact P|]. split; [exact Hb|]. split; [exact Ub|].
  clear E P Hb Ub b. intros (n & d & [I _] & Dn & K). assert (Q : genSchemaVersion (ge_ver plain_ge) < v_depr d).
  { apply K. exists (T "B"), y. split; [split; [rewrite Ev; right; now left|rewrite Et, Vy; reflexivity]|]. rewrite Dy. vm_compute. reflexivity. }
  rewrite Ev in I. destruct I as [I|[I|[]]]; apply pair_equal_spec in I as [<- <-].
  - rewrite Dx in Q. change (genSchemaVersion (ge_ver plain_ge)) with 5 in Q. lia.
  - rewrite Ny in Dn. inversion Dn; congruence.
Qed.
Print Assumptions C61_deprecated_refuted.
(** the array names enumerators which a forced version has left out *)
Lemma name_no_comma n : parseIsValidName n = true -> ~ In ","%char n.
Proof. intros H I. apply valid_identifier in H as [[_ W] _]. rewrite Forall_forall in W. apply W in I. destruct I as [I|I]; vm_compute in I; intuition discriminate. Qed.
Theorem C61_forced_refuted : exists s body elems, enum_declared s /\ plain_names s /\ distinct_numbers s /\ names_map_body forced_ge s = Ok body /\
  unindent true body = map_code true elems /\
  forall vs, (forall n z, In (n, z) vs <-> exists d, declared_number s n d z /\ v_since d <= genSchemaVersion (ge_ver forced_ge)) -> forall v t, ~ searched_name vs elems v t.
Proof.
  assert (H : exists s, ex_enum5 [("type", "int8")] [ex_val5 [("name", "A"); ("val", "-1")]; ex_val5 [("name", "G"); ("val", "3"); ("sinceVersion", "5")]] = Ok s /\ plain_names s /\ is_unique (rev_values s) = true /\
    (exists b, names_map_body forced_ge s = Ok b /\ unindent true b = map_code true [pair_element (T "A") (T "A"); pair_element (T "G") (T "G")]) /\
    exists d, assoc (T "G") (en_values s) = Some d /\ v_since d = 5).
  { by_eval E. split; [apply plain_names_dec; vm_compute; reflexivity|]. split; [vm_compute; reflexivity|]. split; [eexists; split; vm_compute; reflexivity|]. eexists. vm_compute. auto. }
  destruct H as (s & E & P & U & (b & Hb & Ub) & d & Ad & Vd). pose proof (ex_declared _ _ _ E) as D. apply enum_declared_gen in D as G. eexists s, b, _. split; [exact D|]. split; [exact P|].
  split; [exact (distinct_dec s G U)|]. split; [exact Hb|]. split; [exact Ub|]. clear E P U Hb Ub b D. intros vs Hvs v t (es & Ee & Hes & _).
  destruct es as [|e0 es]; [discriminate Ee|]. destruct es as [|[[n z] u] es]; [discriminate Ee|]. cbn [map] in Ee. injection Ee as _ Eg _. cbn [fst snd] in Eg.
  specialize (Hes n z u ltac:(right; now left)). apply Hvs in Hes as (d' & [Id _] & V). destruct (value_In s n d' G Id) as (A & Vn & _).
  assert (Hn : n = T "G").
  { apply name_no_comma in Vn. symmetry. assert (Ng : ~ In ","%char (T "G")) by (cbn; intuition discriminate). exact (proj1 (cut_unique ","%char (T "G") n _ _ Ng Vn Eg)). }
  subst n. assert (d' = d) as -> by congruence. rewrite Vd in V. change (genSchemaVersion (ge_ver forced_ge)) with 4 in V. lia.
Qed.
Print Assumptions C61_forced_refuted.
