(** The attributes of fields are those written, or inherited, or the defaults. *)
From Verif.Model Require Import Base Common Xml Units Field FieldCommon IntField EnumField SetField FloatField OptCond Composite.
From Verif.Spec Require Import Texts Ints Versions IntSpec EnumSpec XmlSpec FieldSpec CondSpec TreeSpec HeaderSpec DslSpec AttrSpec.
From Verif.Proofs Require Import BaseFacts CommonFacts CondFacts XmlFacts IntFacts IntInv FieldInv FieldFacts OwnFacts SingleFacts CaseFacts TreeFacts.
Local Open Scope list_scope.

(** ** Readings *)
Ltac case_text v w := assert (caseless v w <-> to_lower v = w) by (apply caseless_iff; reflexivity).
Lemma nil_lower v : to_lower v = [] <-> v = [].
Proof. destruct v; cbn; split; intros H; try discriminate; reflexivity. Qed.
Lemma str_eqb_iff a b : str_eqb a b = true <-> a = b.
Proof. apply str_eqb_eq. Qed.
Lemma override_text_spec v o : override_of v = Some o <-> override_text v o.
Proof.
  unfold override_of, override_text. pose proof (nil_lower v) as N.
  case_text v (T "any"); case_text v (T "replace"); case_text v (T "extend"); case_text v (T "none").
  set (l := to_lower v) in *. clearbody l.
  destruct (is_nil l) eqn:E0; cbn [orb].
  { destruct l; [|discriminate]. destruct o; (split; [|]); intros X; try discriminate X; try tauto; try reflexivity; exfalso; (assert (Y : ([] : str) = L "replace") by tauto) || (assert (Y : ([] : str) = L "extend") by tauto) || (assert (Y : ([] : str) = L "none") by tauto); discriminate Y. }
  assert (l <> []) by (intros ->; discriminate).
  destruct (str_eqb l (L "any")) eqn:E1; [apply str_eqb_iff in E1; subst l|].
  { destruct o; split; intros X; try discriminate X; try tauto; exfalso; first [assert (Y : L "any" = L "replace") by tauto; discriminate Y|assert (Y : L "any" = L "extend") by tauto; discriminate Y|assert (Y : L "any" = L "none") by tauto; discriminate Y]. }
  assert (N1 : l <> L "any") by (intros ->; discriminate E1).
  destruct (str_eqb l (L "replace")) eqn:E2; [apply str_eqb_iff in E2; subst l|].
  { destruct o; split; intros X; try discriminate X; try tauto; exfalso; first [assert (Y : L "replace" = L "extend") by tauto; discriminate Y|assert (Y : L "replace" = L "none") by tauto; discriminate Y]. }
  assert (N2 : l <> L "replace") by (intros ->; discriminate E2).
  destruct (str_eqb l (L "extend")) eqn:E3; [apply str_eqb_iff in E3; subst l|].
  { destruct o; split; intros X; try discriminate X; try tauto; exfalso; first [assert (Y : L "extend" = L "none") by tauto; discriminate Y]. }
  assert (N3 : l <> L "extend") by (intros ->; discriminate E3).
  destruct (str_eqb l (L "none")) eqn:E4; [apply str_eqb_iff in E4; subst l|].
  { destruct o; split; intros X; try discriminate X; try tauto; reflexivity. }
  assert (N4 : l <> L "none") by (intros ->; discriminate E4).
  split; [discriminate|]. destruct o; intros X; exfalso; unfold T, L in *; tauto.
Qed.
(** a table of lower case words *)
Lemma assoc_table {A} (tbl : list (str * A)) v x : NoDup (map fst tbl) ->
  forallb (fun y => str_eqb (to_lower (fst y)) (fst y)) tbl = true ->
  (assoc (to_lower v) tbl = Some x <-> exists w, caseless v w /\ In (w, x) tbl).
Proof.
  intros N L. rewrite forallb_forall in L. split.
  - intros H. apply assoc_In in H. exists (to_lower v). split; [apply lower_caseless|exact H].
  - intros (w & C & I). specialize (L _ I). cbn in L. apply str_eqb_eq in L. apply caseless_lower in C; [|exact L]. rewrite C. apply NoDup_assoc; assumption.
Qed.
Ltac nodup := repeat constructor; cbn; intuition discriminate.
Lemma sem_text_spec v t : sem_of v = Some t <-> sem_text v t.
Proof.
  set (tbl := [(L "none", SemNone); (L "version", SemVersion); (L "messageid", SemMessageId); (L "length", SemLength)]).
  assert (E : sem_of v = if is_nil v then Some SemNone else assoc (to_lower v) tbl).
  { unfold sem_of. destruct (is_nil v); [reflexivity|]. cbn [assoc tbl]. unfold tbl. cbn [assoc].
    repeat match goal with |- context[str_eqb ?a ?b] => lazymatch a with to_lower _ => replace (str_eqb a b) with (str_eqb b a) by apply str_eqb_sym end end. reflexivity. }
  rewrite E. unfold sem_text.
  assert (X : assoc (to_lower v) tbl = Some t <-> exists w, caseless v w /\ In (w, t) tbl) by (apply assoc_table; [unfold tbl; nodup|reflexivity]).
  assert (Y : (exists w, caseless v w /\ In (w, t) tbl) <-> caseless v (match t with SemNone => T "none" | SemVersion => T "version" | SemMessageId => T "messageid" | SemLength => T "length" end)).
  { split.
    - intros (w & C & I). unfold tbl in I. cbn [In] in I. destruct I as [I|[I|[I|[I|[]]]]]; injection I as <- <-; exact C.
    - intros C. eexists. split; [exact C|]. destruct t; unfold tbl; cbn; auto 6. }
  destruct v as [|a v]; cbn [is_nil].
  - destruct t; split; intros Z; try discriminate Z; try (left; reflexivity); try reflexivity; inversion Z.
  - rewrite X, Y. destruct t; try tauto. split; [auto|]. intros [Z|Z]; [discriminate Z|exact Z].
Qed.
Lemma int_type_text_spec v t : int_type_of v = Some t <-> int_type_text v t.
Proof.
  unfold int_type_of. rewrite assoc_table; [|nodup|reflexivity]. unfold int_type_text. split.
  - intros (w & C & I). cbn [In] in I. repeat (destruct I as [I|I]; [injection I as <- <-; exact C|]). destruct I.
  - intros C. eexists. split; [exact C|]. destruct t; cbn; auto 12.
Qed.
Lemma float_type_text_spec v t : float_type_of v = Some t <-> float_type_text v t.
Proof.
  unfold float_type_of, float_type_text. case_text v (T "float"). case_text v (T "double"). set (l := to_lower v) in *. clearbody l.
  destruct (str_eqb l (L "float")) eqn:E1; [apply str_eqb_eq in E1; subst l|].
  { destruct t; split; intros X; try discriminate X; try tauto. exfalso. assert (Y : L "float" = L "double") by tauto. discriminate Y. }
  assert (l <> L "float") by (intros ->; discriminate E1).
  destruct (str_eqb l (L "double")) eqn:E2; [apply str_eqb_eq in E2; subst l|].
  { destruct t; split; intros X; try discriminate X; try tauto; reflexivity. }
  assert (l <> L "double") by (intros ->; discriminate E2).
  split; [discriminate|]. destruct t; intros X; exfalso; unfold T, L in *; tauto.
Qed.
Lemma mode_text_spec v m : assoc (to_lower v)
    [(L "tent", Tentative); (L "tentative", Tentative); (L "t", Tentative);
     (L "miss", Missing); (L "missing", Missing); (L "m", Missing);
     (L "exists", Exists); (L "exist", Exists); (L "e", Exists)]%string = Some m <-> mode_text v m.
Proof.
  rewrite assoc_table; [|nodup|reflexivity]. unfold mode_text. split; intros (w & C & I); exists w; (split; [exact C|]).
  - cbn [In] in I. repeat (destruct I as [I|I]; [injection I as <- <-; cbn; auto 6|]). destruct I.
  - destruct m; cbn [In] in I |- *; repeat (destruct I as [<-|I]; [auto 12|]); destruct I.
Qed.
Lemma endian_text_spec v d en : v <> [] -> (parseEndian v d = Some en <-> endian_text v en).
Proof.
  intros N. unfold parseEndian, endian_text. destruct v as [|a v]; [contradiction|]. cbn [is_nil]. set (w := a :: v) in *.
  case_text w (T "little"). case_text w (T "big"). set (l := to_lower w) in *. clearbody l.
  destruct (str_eqb l (L "little")) eqn:E1; [apply str_eqb_eq in E1; subst l|].
  { destruct en; split; intros X; try discriminate X; try tauto; try reflexivity. exfalso. assert (Y : L "little" = L "big") by tauto. discriminate Y. }
  assert (l <> L "little") by (intros ->; discriminate E1).
  destruct (str_eqb l (L "big")) eqn:E2; [apply str_eqb_eq in E2; subst l|].
  { destruct en; split; intros X; try discriminate X; try tauto; try reflexivity. }
  assert (l <> L "big") by (intros ->; discriminate E2).
  split; [discriminate|]. destruct en; intros X; exfalso; unfold T, L in *; tauto.
Qed.
(** units *)
Lemma gaps_filter v : without_gaps v (filter (fun c => negb (ch_eqb c " " || ch_eqb c (chr 9))) v).
Proof.
  induction v as [|c v IH]; [constructor|]. cbn [filter]. destruct (ch_eqb c " " || ch_eqb c (chr 9)) eqn:E; cbn [negb].
  - apply wg_gap; [|exact IH]. apply orb_true_iff in E as [E|E]; apply ch_eqb_eq in E; [left|right]; exact E.
  - apply wg_char; [|exact IH]. apply orb_false_iff in E as [E1 E2]. intros [->| ->]; discriminate.
Qed.
Lemma gaps_det v : forall w1 w2, without_gaps v w1 -> without_gaps v w2 -> w1 = w2.
Proof. induction v; intros w1 w2 A B; inversion A; inversion B; subst; try contradiction; try reflexivity; [eauto|f_equal; eauto]. Qed.
Lemma lower_gap c : (ch_eqb (tolower c) " " || ch_eqb (tolower c) (chr 9)) = (ch_eqb c " " || ch_eqb c (chr 9)).
Proof. destruct c as [b1 b2 b3 b4 b5 b6 b7 b8]; destruct b1, b2, b3, b4, b5, b6, b7, b8; vm_compute; reflexivity. Qed.
Lemma units_key_spec v w : without_gaps v w -> units_key v = to_lower w.
Proof.
  intros H. rewrite (gaps_det _ _ _ H (gaps_filter v)). unfold units_key, to_lower. clear H w. induction v as [|c v IH]; [reflexivity|].
  cbn [map filter]. rewrite lower_gap. destruct (ch_eqb c " " || ch_eqb c (chr 9)); cbn [negb map]; rewrite IH; reflexivity.
Qed.
Lemma units_text_spec v u : parseStrToUnits v = Some u <-> units_text v u.
Proof.
  unfold parseStrToUnits, units_text. rewrite (units_key_spec _ _ (gaps_filter v)). set (w := filter _ v).
  assert (G : without_gaps v w) by apply gaps_filter. split.
  - intros H. apply assoc_In in H.
    assert (C : forallb (fun y => existsb (fun z => str_eqb (fst z) (snd y) && mem_str (fst y) (snd z)) unit_texts) units_table = true) by (vm_compute; reflexivity).
    rewrite forallb_forall in C. specialize (C _ H). cbn [fst snd] in C. apply existsb_exists in C as ([u' l] & I & C). cbn [fst snd] in C.
    apply andb_true_iff in C as [C1 C2]. apply str_eqb_eq in C1 as ->. apply mem_str_In in C2.
    exists w, (to_lower w), l. split; [exact G|]. split; [apply lower_caseless|]. split; assumption.
  - intros (w' & t & l & G' & C & It & Il). rewrite (gaps_det _ _ _ G' G) in C.
    assert (K : forallb (fun y => forallb (fun t => str_eqb (to_lower t) t && match assoc t units_table with Some u => str_eqb u (fst y) | None => false end) (snd y)) unit_texts = true) by (vm_compute; reflexivity).
    rewrite forallb_forall in K. specialize (K _ Il). cbn [fst snd] in K. rewrite forallb_forall in K. specialize (K _ It). apply andb_true_iff in K as [K1 K2].
    apply str_eqb_eq in K1. rewrite (caseless_lower _ _ C K1). destruct (assoc t units_table); [|discriminate]. apply str_eqb_eq in K2 as ->. reflexivity.
Qed.
(** texts that may be references *)
Lemma backslash_before_true s : all_backslash_before s = Some true <-> exists k r, s = repeat "\"%char k ++ "^"%char :: r.
Proof.
  induction s as [|c s IH]; cbn [all_backslash_before].
  - split; [discriminate|]. intros (k & r & H). destruct k; discriminate H.
  - destruct (ch_eqb c c_extref) eqn:E.
    + apply ch_eqb_eq in E as ->. split; [|reflexivity]. intros _. exists O, s. reflexivity.
    + split.
      * destruct (all_backslash_before s) as [b|]; [|discriminate]. intros H. injection H as H. apply andb_true_iff in H as [H1 ->]. apply ch_eqb_eq in H1 as ->.
        destruct (proj1 IH eq_refl) as (k & r & ->). exists (S k), r. reflexivity.
      * intros (k & r & H). destruct k as [|k]; [injection H as -> _; discriminate E|]. injection H as -> H. rewrite (proj2 IH (ex_intro _ k (ex_intro _ r H))). reflexivity.
Qed.
Lemma avail e m : supports e m = true <-> available m (e_dsl e).
Proof. unfold supports, available. rewrite orb_true_iff. rewrite Z.eqb_eq, Z.leb_le. tauto. Qed.
Lemma text_read_spec e v a : deref_string e v = Some a <-> text_read e v a.
Proof.
  unfold deref_string. pose proof (avail e 2) as A. unfold field_refs_supported. destruct (supports e 2) eqn:S.
  - assert (A' : available 2 (e_dsl e)) by (apply A; reflexivity). clear A S.
    destruct v as [|c r]; cbn [is_nil negb orb].
    + split; [intros H; injection H as <-; apply tx_plain; intros k r; destruct k; discriminate|]. intros H. inversion H; reflexivity.
    + destruct (ch_eqb c c_extref) eqn:E.
      * apply ch_eqb_eq in E as ->. split; [intros H; apply tx_ref; assumption|]. intros H. inversion H; subst; try contradiction; try assumption.
        exfalso. match goal with X : forall k r, _ <> _ |- _ => apply (X O r); reflexivity end.
      * destruct (all_backslash_before (c :: r)) as [[|]|] eqn:B.
        -- apply backslash_before_true in B as (k & q & B). destruct k as [|k]; [injection B as -> _; discriminate E|]. injection B as -> ->.
           split; [intros H; injection H as <-; apply tx_escape; exact A'|]. intros H. inversion H; subst; try contradiction.
           { match goal with X : repeat _ _ ++ _ = _ |- _ => rewrite X end. reflexivity. }
           exfalso. match goal with X : forall k r, _ <> _ |- _ => apply (X (S k) q); reflexivity end.
        -- assert (N : forall k q, c :: r <> repeat "\"%char k ++ "^"%char :: q).
           { intros k q X. assert (Y : all_backslash_before (c :: r) = Some true) by (apply backslash_before_true; eauto). congruence. }
           split; [intros H; injection H as <-; apply tx_plain, N|]. intros H. inversion H; subst; try contradiction; try reflexivity; exfalso; [apply (N O r)|eapply (N (S k))]; reflexivity.
        -- assert (N : forall k q, c :: r <> repeat "\"%char k ++ "^"%char :: q).
           { intros k q X. assert (Y : all_backslash_before (c :: r) = Some true) by (apply backslash_before_true; eauto). congruence. }
           split; [intros H; injection H as <-; apply tx_plain, N|]. intros H. inversion H; subst; try contradiction; try reflexivity; exfalso; [apply (N O r)|eapply (N (S k))]; reflexivity.
  - assert (A' : ~ available 2 (e_dsl e)) by (intros X; apply A in X; discriminate). rewrite orb_true_r.
    split; [intros H; injection H as <-; apply tx_old; exact A'|]. intros H. inversion H; subst; try contradiction; reflexivity.
Qed.
Lemma int32_text_spec v z : option_map to_s32 (parseStrToUnsigned v) = Some z <-> int32_text v z.
Proof.
  unfold int32_text, unsigned32_text. split.
  - destruct (parseStrToUnsigned v) as [y|] eqn:E; [|discriminate]. intros H. injection H as <-. exists y. apply unsigned_spec in E. split; [exact E|].
    unfold to_s32. change (two32 / 2) with (2 ^ 31). change two32 with (2 ^ 32). destruct (2 ^ 31 <=? y) eqn:C; lia.
  - intros (y & E & C). apply unsigned_spec in E. rewrite E. cbn. f_equal. unfold to_s32. change (two32 / 2) with (2 ^ 31). change two32 with (2 ^ 32). destruct (2 ^ 31 <=? y) eqn:D; lia.
Qed.

(** ** Where the values come from *)
Section Given.
Variables (n : node) (p : props) (k : str).
Hypothesis S : supplied n k (values_of p k).
(** a property checked to be single, then looked up *)
Lemma given_find {A} b u (reads : txt -> A -> Prop) (d a : A) : parseValidateSinglePropInstance p k b = Ok u ->
  match find_prop p k with None => a = d | Some v => reads v a end -> given n k reads d a.
Proof.
  intros O H. apply once_single in O. rewrite find_values in H. revert S O H. unfold once. destruct (values_of p k) as [|v [|w l]]; cbn; intros S' O H.
  - apply given_default; assumption.
  - eapply given_written; eassumption.
  - lia.
Qed.
Lemma given_get {A} b u (reads : txt -> A -> Prop) (d a : A) : parseValidateSinglePropInstance p k b = Ok u ->
  (get_prop p k = [] -> a = d) -> (get_prop p k <> [] -> reads (get_prop p k) a) -> given n k (if_not_empty reads d) d a.
Proof.
  intros O H1 H2. eapply given_find; [exact O|]. unfold get_prop in *. destruct (find_prop p k) as [v|]; [|auto].
  destruct v as [|x v]; [left; auto|right]. split; [discriminate|apply H2; discriminate].
Qed.
Lemma given_string e b (d a : str) : string_prop e p k b false d = Ok a -> given n k as_written d a.
Proof.
  unfold string_prop. intros H. apply bind_Ok in H as (u & O & H). eapply given_find; [exact O|]. destruct (find_prop p k); injection H as <-; reflexivity.
Qed.
Lemma given_text e b (d a : str) : string_prop e p k b true d = Ok a -> given n k (text_read e) d a.
Proof.
  unfold string_prop. intros H. apply bind_Ok in H as (u & O & H). eapply given_find; [exact O|].
  destruct (find_prop p k); [apply of_opt_Ok in H; apply text_read_spec; exact H|injection H as <-; reflexivity].
Qed.
Lemma given_bool e (d a : bool) : assoc k prop_versions = None -> bool_prop e p k d = Ok a -> given n k bool_text d a.
Proof.
  unfold bool_prop, prop_supported. intros -> H. apply bind_Ok in H as (u & O & H). eapply given_find; [exact O|].
  destruct (find_prop p k); [apply of_opt_Ok in H; apply bool_text_spec; exact H|injection H as <-; reflexivity].
Qed.
Lemma given_bool_since e m (d a : bool) : assoc k prop_versions = Some m -> bool_prop e p k d = Ok a ->
  given n k (if_available m e bool_text d) d a.
Proof.
  unfold bool_prop, prop_supported. intros -> H. apply bind_Ok in H as (u & O & H). eapply given_find; [exact O|].
  destruct (find_prop p k); [|injection H as <-; reflexivity]. pose proof (avail e m) as A. unfold if_available. destruct (supports e m); cbn [negb] in H.
  - left. split; [apply A; reflexivity|]. apply of_opt_Ok in H. apply bool_text_spec. exact H.
  - right. injection H as <-. split; [|reflexivity]. intros X. apply A in X. discriminate.
Qed.
End Given.


Lemma available_cases e m : supports e m = true /\ available m (e_dsl e) \/ supports e m = false /\ ~ available m (e_dsl e).
Proof. pose proof (avail e m). destruct (supports e m); [left|right]; (split; [reflexivity|]); [tauto|]. intros X. apply H in X. discriminate. Qed.
Lemma override_props_nth e p : forall ks olds os, override_props e p ks olds = Ok os ->
  length os = length ks /\ forall i k, nth_error ks i = Some k -> override_prop e p k (nth i olds OvrAny) = Ok (nth i os OvrAny).
Proof.
  induction ks as [|k ks IH]; intros olds os H; cbn [override_props] in H.
  - injection H as <-. split; [reflexivity|]. intros [|i] k X; discriminate.
  - apply bind_Ok in H as (o & Ho & H). apply bind_Ok in H as (os' & H' & H). injection H as <-. apply IH in H' as [E H']. split; [cbn; congruence|].
    intros [|i] k' X; cbn in X.
    + injection X as <-. cbn [nth]. destruct olds; exact Ho.
    + specialize (H' _ _ X). destruct olds as [|y olds]; cbn [nth tl] in *; [destruct i|]; exact H'.
Qed.
Lemma reuse_facts e x k p c0 old n : field_props n (extra_props k) (possible_props k) = Ok p -> check_reuse e x k p = Ok (c0, old) ->
  reuses e n old /\ (forall g, old = Some g -> f_kind g = k) /\
  c_name c0 = inherit old c_name [] /\ c_displayName c0 = inherit old c_displayName [] /\ c_description c0 = inherit old c_description [] /\
  c_sem c0 = inherit old c_sem SemNone /\ c_pseudo c0 = inherit old c_pseudo false /\ c_fixedValue c0 = inherit old c_fixedValue false /\
  c_customizable c0 = inherit old c_customizable false /\ c_failOnInvalid c0 = inherit old c_failOnInvalid false /\
  c_forceGen c0 = inherit old c_forceGen false /\ c_validateMinLength c0 = inherit old c_validateMinLength (-1) /\
  (forall i, nth i (c_ovr c0) OvrAny = nth i (inherit old c_ovr []) OvrAny) /\ copied_code e n (c_copyCodeFrom c0).
Proof.
  intros Hp H. assert (S : supplied n (T "reuse") (values_of p (L "reuse"))) by (eapply common_supplied; [exact Hp|apply mem_str_In; reflexivity]).
  assert (S2 : supplied n (T "reuseCode") (values_of p (L "reuseCode"))) by (eapply common_supplied; [exact Hp|apply mem_str_In; reflexivity]).
  unfold check_reuse in H. apply bind_Ok in H as (u & O & H). apply once_single in O. rewrite find_values in H. revert S O H. unfold once.
  destruct (values_of p (L "reuse")) as [|v [|w l]]; cbn [hd_error length]; intros S O H; [| |lia].
  - injection H as <- <-. split; [apply reuses_nothing, S|]. split; [discriminate|]. do 10 (split; [reflexivity|]). split; [|apply cc_none, S].
    intros i. cbn [inherit init_common c_ovr]. do 8 (destruct i as [|i]; [reflexivity|]). cbn. destruct i; reflexivity.
  - apply bind_Ok in H as (g & Hg & H). apply of_opt_Ok in Hg. apply bind_Ok in H as (u1 & K & H). apply guard_Ok in K.
    apply bind_Ok in H as (u2 & _ & H). apply bind_Ok in H as (code & Hc & H). injection H as <- <-. split; [eapply reuses_field; eassumption|].
    split. { intros g' E. injection E as <-. destruct (f_kind g), k; try discriminate K; reflexivity. }
    do 11 (split; [reflexivity|]). cbn [c_copyCodeFrom]. eapply cc_reuse; [exact S|]. eapply given_bool_since; [exact S2|reflexivity|exact Hc].
Qed.
Lemma common_given_spec e x n k p c0 old c : field_props n (extra_props k) (possible_props k) = Ok p -> check_reuse e x k p = Ok (c0, old) ->
  update_common e x p c0 = Ok c -> reuses e n old /\ (forall g, old = Some g -> f_kind g = k) /\ common_given e n old c.
Proof.
  intros Hp Hr H. destruct (reuse_facts _ _ _ _ _ _ _ Hp Hr) as (R & K & E1 & E2 & E3 & E4 & E5 & E6 & E7 & E8 & E9 & E10 & E11 & E12).
  split; [exact R|]. split; [exact K|]. clear Hr R K. unfold update_common in H.
  assert (S : forall s, mem_str s common_props = true -> supplied n s (values_of p s)) by (intros s X; eapply common_supplied; [exact Hp|apply mem_str_In; exact X]).
  apply bind_Ok in H as (name & H1 & H). apply bind_Ok in H as (dname & H2 & H). apply bind_Ok in H as (descr & H3 & H).
  apply bind_Ok in H as ([[since depr] removed] & H4 & H). apply bind_Ok in H as (sem & H5 & H). apply bind_Ok in H as (pseudo & H6 & H).
  apply bind_Ok in H as (fixed & H7 & H). apply bind_Ok in H as (custom & H8 & H). apply bind_Ok in H as (foi & H9 & H). apply bind_Ok in H as (force & H10 & H).
  apply bind_Ok in H as (ovr & H11 & H). apply bind_Ok in H as (copy & H12 & H). apply bind_Ok in H as (vml & H13 & H). injection H as <-.
  rewrite E1 in H1. rewrite E2 in H2. rewrite E3 in H3. rewrite E4 in H5. rewrite E5 in H6. rewrite E6 in H7. rewrite E7 in H8. rewrite E8 in H9. rewrite E9 in H10. rewrite E10 in H13.
  constructor; cbn [c_name c_displayName c_description c_removed c_sem c_pseudo c_fixedValue c_customizable c_failOnInvalid c_forceGen c_validateMinLength c_ovr c_copyCodeFrom].
  - eapply given_string; [apply S; reflexivity|exact H1].
  - eapply given_text; [apply S; reflexivity|exact H2].
  - eapply given_text; [apply S; reflexivity|exact H3].
  - unfold update_versions in H4. apply bind_Ok in H4 as (u1 & _ & H4). apply bind_Ok in H4 as (u2 & _ & H4). apply bind_Ok in H4 as (u3 & O & H4).
    apply bind_Ok in H4 as ([s d] & _ & H4). apply bind_Ok in H4 as (r & Hr & H4). injection H4 as _ _ <-.
    change (T "removed") with (L "removed"). eapply given_find; [apply S; reflexivity|exact O|]. destruct (find_prop p (L "removed")); [apply of_opt_Ok in Hr; apply bool_text_spec; exact Hr|injection Hr as <-; reflexivity].
  - unfold update_sem in H5. apply bind_Ok in H5 as (u & O & H5). change (T "semanticType") with (L "semanticType"). eapply given_find; [apply S; reflexivity|exact O|].
    destruct (find_prop p (L "semanticType")); [apply of_opt_Ok in H5; apply sem_text_spec; exact H5|injection H5 as <-; reflexivity].
  - eapply given_bool; [apply S; reflexivity|reflexivity|exact H6].
  - eapply given_bool_since; [apply S; reflexivity|reflexivity|exact H7].
  - eapply given_bool; [apply S; reflexivity|reflexivity|exact H8].
  - eapply given_bool; [apply S; reflexivity|reflexivity|exact H9].
  - eapply given_bool; [apply S; reflexivity|reflexivity|exact H10].
  - unfold update_validate_min_length in H13. apply bind_Ok in H13 as (u & O & H13). change (T "validateMinLength") with (L "validateMinLength"). eapply given_find; [apply S; reflexivity|exact O|].
    destruct (find_prop p (L "validateMinLength")) as [v|]; [|injection H13 as <-; reflexivity]. unfold if_available, validate_min_length_supported in *.
    destruct (available_cases e 7) as [[X Y]|[X Y]]; rewrite X in H13; cbn [negb] in H13.
    + left. split; [exact Y|]. apply bind_Ok in H13 as (y & Hy & H13). apply of_opt_Ok in Hy. injection H13 as <-. apply int32_text_spec. rewrite Hy. reflexivity.
    + right. injection H13 as <-. split; [exact Y|reflexivity].
  - apply override_props_nth in H11 as [H11 _]. exact H11.
  - apply override_props_nth in H11 as [_ H11]. intros i s Hi. specialize (H11 i s Hi). rewrite E11 in H11. unfold override_prop in H11. apply bind_Ok in H11 as (u & O & H11).
    eapply given_find; [apply S|exact O|].
    { assert (X : forallb (fun a => mem_str a common_props) override_names = true) by (vm_compute; reflexivity). rewrite forallb_forall in X. apply X. apply nth_error_In in Hi. exact Hi. }
    destruct (find_prop p s) as [v|]; [|injection H11 as <-; reflexivity]. unfold if_available, override_type_supported in *.
    destruct (available_cases e 4) as [[X Y]|[X Y]]; rewrite X in H11; cbn [negb] in H11.
    + left. split; [exact Y|]. apply of_opt_Ok in H11. apply override_text_spec. exact H11.
    + right. injection H11 as <-. split; [exact Y|reflexivity].
  - eexists. split; [exact E12|]. unfold update_copy_code in H12. apply bind_Ok in H12 as (u & O & H12). change (T "copyCodeFrom") with (L "copyCodeFrom"). eapply given_find; [apply S; reflexivity|exact O|].
    destruct (find_prop p (L "copyCodeFrom")) as [v|]; [|injection H12 as <-; reflexivity]. unfold if_available.
    change (prop_supported e (L "copyCodeFrom")) with (supports e 5) in H12.
    destruct (available_cases e 5) as [[X Y]|[X Y]]; rewrite X in H12; cbn [negb] in H12.
    + left. split; [exact Y|]. apply bind_Ok in H12 as (y & Hy & H12). apply of_opt_Ok in Hy. injection H12 as <-. split; [reflexivity|congruence].
    + right. injection H12 as <-. split; [exact Y|reflexivity].
Qed.
(** every kind but references *)
Lemma common_attributes fl e x n f : field_parse fl e x n = Ok f -> f_kind f <> KRef ->
  exists old, reuses e n old /\ (forall g, old = Some g -> f_kind g = f_kind f) /\ common_given e n old (f_common f).
Proof.
  intros H K. apply field_parse_inv in H as (fuel & k & p & c0 & old & repl & c & _ & Hk & Hp & Hr & Hrep & Hc & Hkp & _).
  apply kind_parse_common in Hkp as (E & _ & _ & _ & _ & F). rewrite E in K. rewrite (F K), E.
  exists old. eapply common_given_spec; eassumption.
Qed.

(** ** The kinds of fields *)
Lemma kind_steps fl e x n f : field_parse fl e x n = Ok f -> exists fuel p c0 old repl c,
  let k := f_kind f in
  field_props n (extra_props k) (possible_props k) = Ok p /\ reuses e n old /\ (forall g, old = Some g -> f_kind g = k) /\
  kind_parse (field_parse fuel e) e x c0 c p n k old repl = Ok f.
Proof.
  intros H. apply field_parse_inv in H as (fuel & k & p & c0 & old & repl & c & _ & Hk & Hp & Hr & Hrep & Hc & Hkp & _).
  pose proof Hkp as X. apply kind_parse_common in X as (E & _). rewrite E. destruct (reuse_facts _ _ _ _ _ _ _ Hp Hr) as (R & K & _).
  exists fuel, p, c0, old, repl, c. auto.
Qed.
Section Kind.
Variables (e : env) (n : node) (p : props).
Lemma type_given_spec old t : supplied n (L "type") (values_of p (L "type")) -> int_update_type p old = Ok t -> type_given n int_type_text old t.
Proof.
  intros S H. unfold int_update_type in H. apply bind_Ok in H as (u & O & H). apply once_single in O. rewrite find_values in H. revert S O H. unfold once.
  destruct (values_of p (L "type")) as [|v [|w l]]; cbn [hd_error length]; intros S O H; [| |lia].
  - apply of_opt_Ok in H. split; [intros o E; congruence|right; auto].
  - apply bind_Ok in H as (t' & Ht & H). apply of_opt_Ok in Ht. apply int_type_text_spec in Ht.
    assert (t = t' /\ forall o, old = Some o -> t = o) as [-> E].
    { destruct old as [o|]; [|injection H as <-; split; [reflexivity|discriminate]]. destruct (int_type_eqb t' o) eqn:X; [|discriminate].
      injection H as <-. destruct t', o; try discriminate X; (split; [reflexivity|]); intros o' E; injection E as <-; reflexivity. }
    split; [exact E|]. left. eauto.
Qed.
Lemma ftype_given_spec old t : supplied n (L "type") (values_of p (L "type")) -> float_update_type p old = Ok t -> type_given n float_type_text old t.
Proof.
  intros S H. unfold float_update_type in H. apply bind_Ok in H as (u & O & H). apply once_single in O. rewrite find_values in H. revert S O H. unfold once.
  destruct (values_of p (L "type")) as [|v [|w l]]; cbn [hd_error length]; intros S O H; [| |lia].
  - apply of_opt_Ok in H. split; [intros o E; congruence|right; auto].
  - apply bind_Ok in H as (t' & Ht & H). apply of_opt_Ok in Ht. apply float_type_text_spec in Ht.
    assert (t = t' /\ forall o, old = Some o -> t = o) as [-> E].
    { destruct old as [o|]; [|injection H as <-; split; [reflexivity|discriminate]]. destruct (float_type_eqb t' o) eqn:X; [|discriminate].
      injection H as <-. destruct t', o; try discriminate X; (split; [reflexivity|]); intros o' E; injection E as <-; reflexivity. }
    split; [exact E|]. left. eauto.
Qed.
Lemma endian_given (old : option endian) en : supplied n (L "endian") (values_of p (L "endian")) -> update_endian e p old = Ok en ->
  let d := match old with Some o => o | None => e_endian e end in given n (T "endian") (if_not_empty endian_text d) d en.
Proof.
  intros S H d. unfold update_endian in H. apply bind_Ok in H as (u & O & H). change (T "endian") with (L "endian"). eapply given_get; [exact S|exact O| |].
  - intros E. rewrite E in H. cbn [is_nil] in H. unfold d. destruct old; [injection H as <-; reflexivity|]. cbn in H. injection H as <-. reflexivity.
  - intros E. destruct (get_prop p (L "endian")) as [|a v] eqn:G; [contradiction|]. cbn [is_nil] in H.
    apply of_opt_Ok in H. apply endian_text_spec in H; [exact H|discriminate].
Qed.
Lemma units_given (d u : str) : supplied n (L "units") (values_of p (L "units")) -> update_units p d = Ok u -> given n (T "units") units_text d u.
Proof.
  intros S H. unfold update_units in H. apply bind_Ok in H as (x & O & H). change (T "units") with (L "units"). eapply given_find; [exact S|exact O|].
  destruct (find_prop p (L "units")); [apply of_opt_Ok in H; apply units_text_spec; exact H|injection H as <-; reflexivity].
Qed.
Lemma decimals_given (d z : Z) : supplied n (L "displayDecimals") (values_of p (L "displayDecimals")) -> update_display_decimals p d = Ok z ->
  given n (T "displayDecimals") unsigned32_text d z.
Proof.
  intros S H. unfold update_display_decimals in H. apply bind_Ok in H as (x & O & H). change (T "displayDecimals") with (L "displayDecimals"). eapply given_find; [exact S|exact O|].
  destruct (find_prop p (L "displayDecimals")); [apply of_opt_Ok in H; apply unsigned_spec; exact H|injection H as <-; reflexivity].
Qed.
Lemma offset_given (d z : Z) : supplied n (L "displayOffset") (values_of p (L "displayOffset")) -> update_display_offset p d = Ok z ->
  given n (T "displayOffset") signed64_text d z.
Proof.
  intros S H. unfold update_display_offset in H. apply bind_Ok in H as (x & O & H). change (T "displayOffset") with (L "displayOffset"). eapply given_find; [exact S|exact O|].
  destruct (find_prop p (L "displayOffset")); [apply of_opt_Ok in H; apply stoll_spec; exact H|injection H as <-; reflexivity].
Qed.
Lemma ser_offset_given (d z : Z) : supplied n (L "serOffset") (values_of p (L "serOffset")) -> update_ser_offset p d = Ok z ->
  given n (T "serOffset") (if_not_empty signed64_text d) d z.
Proof.
  intros S H. unfold update_ser_offset in H. apply bind_Ok in H as (x & O & H). change (T "serOffset") with (L "serOffset"). eapply given_get; [exact S|exact O| |].
  - intros E. rewrite E in H. injection H as <-. reflexivity.
  - intros E. destruct (get_prop p (L "serOffset")); [contradiction|]. cbn [is_nil] in H. apply of_opt_Ok in H. apply stoll_spec. exact H.
Qed.
Definition nonzero (r : Z * Z) : Prop := fst r <> 0 /\ snd r <> 0.
Lemma scaling_given d r : supplied n (L "scaling") (values_of p (L "scaling")) -> d = (0, 0) \/ nonzero d -> update_scaling p d = Ok r ->
  let d' := if fst d =? 0 then (1, 1) else d in given n (T "scaling") (if_not_empty ratio_text d') d' r /\ nonzero r.
Proof.
  intros S N H d'. unfold update_scaling in H. apply bind_Ok in H as (x & O & H). apply bind_Ok in H as ([num den] & H1 & H).
  destruct ((num =? 0) || (den =? 0)) eqn:Z0; [discriminate|]. injection H as <-. apply orb_false_iff in Z0 as [Z1 Z2]. apply Z.eqb_neq in Z1, Z2.
  split; [|split; assumption]. change (T "scaling") with (L "scaling"). eapply given_get; [exact S|exact O| |].
  - intros E. rewrite E in H1. cbn [is_nil] in H1. injection H1 as <- <-. unfold d'. destruct d as [a b]. cbn [fst snd] in *.
    destruct N as [N|[N1 N2]]; [injection N as -> ->; reflexivity|]. cbn in N1, N2. apply Z.eqb_neq in N1, N2. rewrite N1, N2. reflexivity.
  - intros E. set (s := get_prop p (L "scaling")) in *. destruct s as [|a v] eqn:Es; [contradiction|]. cbn [is_nil] in H1. rewrite <- Es in *. clear E Es a v.
    destruct (split_at "/" s) as [[ns ds]|] eqn:Sp.
    + apply split_at_spec in Sp as [E1 E2]. destruct (split_at "/" ds) eqn:Sp2; [discriminate|]. apply split_at_None in Sp2.
      destruct (is_nil ns || is_nil ds) eqn:En; [discriminate|]. apply orb_false_iff in En as [En1 En2].
      apply bind_Ok in H1 as (a & Ha & H1). apply bind_Ok in H1 as (b & Hb & H1). injection H1 as <- <-. apply of_opt_Ok in Ha, Hb. apply stoll_spec in Ha, Hb.
      eapply ratio_of; [exact E1|exact E2|exact Sp2| | |exact Ha|exact Hb|exact Z1|exact Z2]; intros ->; discriminate.
    + apply split_at_None in Sp. apply bind_Ok in H1 as (a & Ha & H1). injection H1 as <- <-. apply of_opt_Ok in Ha. apply stoll_spec in Ha.
      apply ratio_whole; assumption.
Qed.
End Kind.
Lemma unique_default e : negb (nonunique_specials_supported e) = true <-> ~ available 2 (e_dsl e).
Proof. unfold nonunique_specials_supported. destruct (available_cases e 2) as [[-> Y]|[-> Y]]; cbn; split; intros X; try discriminate; auto; contradiction. Qed.
Lemma int_attributes fl e x n c s : (forall t d r, e_find e t = Some (FInt d r) -> nonzero (i_scaling r)) -> field_parse fl e x n = Ok (FInt c s) ->
  exists old, reuses e n old /\ (forall g, old = Some g -> f_kind g = KInt) /\ int_given e n (of_int old) s /\ nonzero (i_scaling s).
Proof.
  intros Hf H. apply kind_steps in H as (fuel & p & c0 & old & repl & c' & Hp & R & K & H). cbn [f_kind] in *. exists old. split; [exact R|]. split; [exact K|].
  assert (N : forall o, of_int old = Some o -> nonzero (i_scaling o)).
  { destruct R as [|t g _ G]; [discriminate|]. specialize (K _ eq_refl). destruct g; try discriminate K. intros o X. injection X as <-. eapply Hf, G. }
  assert (S : forall k, mem_str k int_props = true -> mem_str k common_props = false -> supplied n k (values_of p k)) by (intros k A B; eapply extra_supplied; [exact Hp|exact A|exact B|reflexivity]).
  clear Hf Hp R K. unfold kind_parse in H. apply bind_Ok in H as (u & _ & H). apply bind_Ok in H as (s' & H & E). injection E as <- ->. fold (of_int old) in H.
  unfold int_parse in H.
  apply bind_Ok in H as (t & H1 & H). apply bind_Ok in H as (en & H2 & H). apply bind_Ok in H as (len & H3 & H). apply bind_Ok in H as (bits & H4 & H).
  apply bind_Ok in H as (sc & H5 & H). apply bind_Ok in H as (so & H6 & H). apply bind_Ok in H as ([[[tmin tmax] mn] mx] & H7 & H).
  apply bind_Ok in H as (nonU & H8 & H). apply bind_Ok in H as ([sps seen] & H9 & H). apply bind_Ok in H as (d1 & H10 & H). apply bind_Ok in H as ([d2 rs] & H11 & H).
  apply bind_Ok in H as (vcv & H12 & H). apply bind_Ok in H as (new & H13 & H). apply bind_Ok in H as (rs' & H14 & H). apply bind_Ok in H as (units & H15 & H).
  apply bind_Ok in H as (dec & H16 & H). apply bind_Ok in H as (doff & H17 & H). apply bind_Ok in H as (sext & H18 & H). apply bind_Ok in H as (lim & H19 & H). injection H as <-.
  fold (kept (of_int old) i_scaling (0, 0)) in H5. eapply scaling_given in H5 as [H5 Nz]; [|apply S; reflexivity|destruct (of_int old); [right; apply N; reflexivity|left; reflexivity]].
  split; [|exact Nz]. constructor; cbn [i_type i_endian i_serOffset i_scaling i_units i_displayDecimals i_displayOffset i_validCheckVersion i_signExt i_nonUniqueSpecials i_availableLengthLimit].
  - eapply type_given_spec; [apply S; reflexivity|exact H1].
  - eapply endian_given in H2; [|apply S; reflexivity]. destruct (of_int old); exact H2.
  - eapply ser_offset_given; [apply S; reflexivity|exact H6].
  - revert H5. cbv zeta. destruct (of_int old) as [o|]; cbn [kept] in *; [|exact (fun X => X)]. destruct (N _ eq_refl) as [N1 N2]. apply Z.eqb_neq in N1. rewrite N1. exact (fun X => X).
  - eapply units_given; [apply S; reflexivity|exact H15].
  - eapply decimals_given; [apply S; reflexivity|exact H16].
  - eapply offset_given; [apply S; reflexivity|exact H17].
  - eapply given_bool; [apply S; reflexivity|reflexivity|exact H12].
  - eapply given_bool; [apply S; reflexivity|reflexivity|exact H18].
  - eexists. split; [apply unique_default|]. eapply given_bool; [apply S; reflexivity|reflexivity|exact H8].
  - eapply given_bool_since; [apply S; reflexivity|reflexivity|exact H19].
Qed.
Lemma enum_attributes fl e x n c s : field_parse fl e x n = Ok (FEnum c s) ->
  exists old, reuses e n old /\ (forall g, old = Some g -> f_kind g = KEnum) /\ enum_given e n (of_enum old) s.
Proof.
  intros H. apply kind_steps in H as (fuel & p & c0 & old & repl & c' & Hp & R & K & H). cbn [f_kind] in *. exists old. split; [exact R|]. split; [exact K|].
  assert (S : forall k, mem_str k enum_props = true -> mem_str k common_props = false -> supplied n k (values_of p k)) by (intros k A B; eapply extra_supplied; [exact Hp|exact A|exact B|reflexivity]).
  clear Hp R K. unfold kind_parse in H. apply bind_Ok in H as (u & _ & H). apply bind_Ok in H as (s' & H & E). injection E as <- ->. fold (of_enum old) in H.
  unfold enum_parse in H.
  apply bind_Ok in H as (t & H1 & H). apply bind_Ok in H as (en & H2 & H). apply bind_Ok in H as (len & H3 & H). apply bind_Ok in H as (bits & H4 & H).
  apply bind_Ok in H as (nonU & H5 & H). apply bind_Ok in H as (vcv & H6 & H). apply bind_Ok in H as (mn & H7 & H). apply bind_Ok in H as (mx & H8 & H).
  apply bind_Ok in H as (vals & H9 & H). apply bind_Ok in H as (d & H10 & H). apply bind_Ok in H as (hex & H11 & H). apply bind_Ok in H as (lim & H12 & H). injection H as <-.
  constructor; cbn [en_type en_endian en_nonUnique en_validCheckVersion en_hexAssign en_availableLengthLimit].
  - eapply type_given_spec; [apply S; reflexivity|exact H1].
  - eapply endian_given in H2; [|apply S; reflexivity]. destruct (of_enum old); exact H2.
  - eapply given_bool; [apply S; reflexivity|reflexivity|exact H5].
  - eapply given_bool; [apply S; reflexivity|reflexivity|exact H6].
  - unfold enum_hex_assign in H11. apply bind_Ok in H11 as (h & Hh & H11). pose proof Hh as Hb.
    eapply (given_bool n) in Hh; [|apply S; reflexivity|reflexivity].
    unfold get_prop in H11. rewrite find_values in H11. assert (Sh := S (L "hexAssign") eq_refl eq_refl). destruct (values_of p (L "hexAssign")) as [|v l] eqn:V; cbn [hd_error] in H11.
    + cbn [is_nil] in H11. injection H11 as <-. split; [exact Hh|left; exact Sh].
    + destruct (is_nil v) eqn:Nv.
      * exfalso. destruct v; [|discriminate]. unfold bool_prop in Hb. apply bind_Ok in Hb as (u' & _ & Hb). rewrite find_values, V in Hb. cbn in Hb. discriminate.
      * destruct (is_unsigned t) eqn:U; [|discriminate]. injection H11 as <-. split; [exact Hh|right]. destruct t; try discriminate U; cbn; auto 6.
  - eapply given_bool_since; [apply S; reflexivity|reflexivity|exact H12].
Qed.
Lemma bit_read_spec e v b : set_str_to_value e v = Some b <-> bit_read e v b.
Proof.
  unfold set_str_to_value, bit_read. destruct (parseStrToBool v) as [y|] eqn:E.
  - apply bool_text_spec in E as X. split; [intros H; injection H as <-; left; exact X|]. intros [H|[H _]]; [apply bool_text_spec in H; congruence|exfalso; eapply H; exact X].
  - assert (N : forall b, ~ bool_text v b) by (intros y H; apply bool_text_spec in H; congruence).
    unfold field_refs_supported. destruct (available_cases e 2) as [[-> Y]|[-> Y]].
    + split; [intros H; right; auto|]. intros [H|(_ & _ & H)]; [exfalso; eapply N; exact H|exact H].
    + split; [discriminate|]. intros [H|(_ & H & _)]; [exfalso; eapply N; exact H|contradiction].
Qed.
Lemma first_given_bool e n p k d b : supplied n k (values_of p k) -> set_bool e p k d = Ok b -> first_given n k (bit_read e) d b.
Proof.
  intros S H. unfold set_bool in H. rewrite find_values in H. destruct (values_of p k) as [|v l]; cbn [hd_error] in H.
  - injection H as <-. left. auto.
  - right. exists v, l. split; [exact S|]. apply of_opt_Ok in H. apply bit_read_spec. exact H.
Qed.
Lemma set_attributes fl e x n c s : field_parse fl e x n = Ok (FSet c s) ->
  exists old, reuses e n old /\ (forall g, old = Some g -> f_kind g = KSet) /\ set_given e n (of_set old) s.
Proof.
  intros H. apply kind_steps in H as (fuel & p & c0 & old & repl & c' & Hp & R & K & H). cbn [f_kind] in *. exists old. split; [exact R|]. split; [exact K|].
  assert (S : forall k, mem_str k set_props = true -> mem_str k common_props = false -> supplied n k (values_of p k)) by (intros k A B; eapply extra_supplied; [exact Hp|exact A|exact B|reflexivity]).
  clear Hp R K. unfold kind_parse in H. apply bind_Ok in H as (u & _ & H). apply bind_Ok in H as (s' & H & E). injection E as <- ->. fold (of_set old) in H.
  unfold set_parse in H.
  apply bind_Ok in H as (en & H1 & H). apply bind_Ok in H as (t & H2 & H). apply bind_Ok in H as ([[t' len] bits] & H3 & H). apply bind_Ok in H as (nonU & H4 & H).
  apply bind_Ok in H as (vcv & H5 & H). apply bind_Ok in H as (dflt & H6 & H). apply bind_Ok in H as (resv & H7 & H). apply bind_Ok in H as (lim & H8 & H).
  apply bind_Ok in H as (bs & H9 & H). injection H as <-.
  constructor; cbn [s_endian s_nonUnique s_validCheckVersion s_defaultBit s_reservedBit s_availableLengthLimit].
  - eapply endian_given in H1; [|apply S; reflexivity]. destruct (of_set old); exact H1.
  - unfold set_update_nonunique in H4. apply bind_Ok in H4 as (b & Hb & H4). pose proof Hb as O. unfold bool_prop in Hb.
    apply bind_Ok in Hb as (u' & O' & Hb). change (T "nonUniqueAllowed") with (L "nonUniqueAllowed"). eapply given_find; [apply S; reflexivity|exact O'|].
    unfold get_prop in H4. destruct (find_prop p (L "nonUniqueAllowed")) as [v|]; [|injection H4 as <-; reflexivity].
    change (prop_supported e (L "nonUniqueAllowed")) with true in Hb. cbn [negb] in Hb. apply of_opt_Ok in Hb.
    destruct (is_nil v) eqn:Nv; [destruct v; [discriminate Hb|discriminate]|]. apply bool_text_spec in Hb.
    match type of H4 with (if ?q then _ else _) = _ => destruct q end; [discriminate|injection H4 as <-; exact Hb].
  - eapply given_bool; [apply S; reflexivity|reflexivity|exact H5].
  - eapply first_given_bool; [apply S; reflexivity|exact H6].
  - eapply first_given_bool; [apply S; reflexivity|exact H7].
  - eapply given_bool_since; [apply S; reflexivity|reflexivity|exact H8].
Qed.
Lemma float_attributes fl e x n c s : field_parse fl e x n = Ok (FFloat c s) ->
  exists old, reuses e n old /\ (forall g, old = Some g -> f_kind g = KFloat) /\ float_given e n (of_float old) s.
Proof.
  intros H. apply kind_steps in H as (fuel & p & c0 & old & repl & c' & Hp & R & K & H). cbn [f_kind] in *. exists old. split; [exact R|]. split; [exact K|].
  assert (S : forall k, mem_str k float_props = true -> mem_str k common_props = false -> supplied n k (values_of p k)) by (intros k A B; eapply extra_supplied; [exact Hp|exact A|exact B|reflexivity]).
  clear Hp R K. unfold kind_parse in H. apply bind_Ok in H as (u & _ & H). apply bind_Ok in H as (s' & H & E). injection E as <- ->. fold (of_float old) in H.
  unfold float_parse in H.
  apply bind_Ok in H as (t & H1 & H). apply bind_Ok in H as (en & H2 & H). apply bind_Ok in H as (nonU & H3 & H). apply bind_Ok in H as ([[sps seen] nan] & H4 & H).
  apply bind_Ok in H as (d & H5 & H). apply bind_Ok in H as (vcv & H6 & H). apply bind_Ok in H as (new & H7 & H). apply bind_Ok in H as (units & H8 & H). apply bind_Ok in H as (dec & H9 & H). injection H as <-.
  constructor; cbn [f_type f_endian f_units f_displayDecimals f_validCheckVersion f_nonUniqueSpecials].
  - eapply ftype_given_spec; [apply S; reflexivity|exact H1].
  - unfold float_update_endian in H2. apply bind_Ok in H2 as (u' & O & H2). change (T "endian") with (L "endian"). eapply given_get; [apply S; reflexivity|exact O| |].
    + intros E. rewrite E in H2. cbn in H2. injection H2 as <-. reflexivity.
    + intros E. apply of_opt_Ok in H2. eapply endian_text_spec in H2; [exact H2|exact E].
  - eapply units_given; [apply S; reflexivity|exact H8].
  - eapply decimals_given; [apply S; reflexivity|exact H9].
  - eapply given_bool; [apply S; reflexivity|reflexivity|exact H6].
  - eexists. split; [apply unique_default|]. eapply given_bool; [apply S; reflexivity|reflexivity|exact H3].
Qed.
