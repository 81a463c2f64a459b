(** The attributes of strings, raw data and composite fields. *)
From Coq Require Import Sorted.
From Verif.Model Require Import Base Common Xml Units Field FieldCommon IntField EnumField SetField FloatField OptCond Composite.
From Verif.Spec Require Import Texts Ints Versions IntSpec EnumSpec XmlSpec FieldSpec CondSpec TreeSpec HeaderSpec DslSpec AttrSpec.
From Verif.Proofs Require Import BaseFacts CommonFacts CondFacts XmlFacts RangeFacts IntFacts IntInv FieldInv FieldFacts OwnFacts SingleFacts CaseFacts PlatFacts TreeFacts AttrFacts.
Local Open Scope list_scope.

(** ** Bytes *)
Lemma hex_digit_spec a v : digit_val a = v /\ v < 16 <-> is_digit 16 a v.
Proof.
  unfold is_digit. split.
  - intros [<- H]. split; [split; [apply digit_val_nonneg|exact H]|apply digit_val_lookup; exact H].
  - intros [H [N|N]]; (eapply lookup_digit_val in N; [|auto]); lia.
Qed.
Lemma hex_pairs_spec w l : hex_bytes w = Some l <-> hex_pairs w l.
Proof.
  split.
  - revert w l. fix IH 1. intros [|a [|b w]] l; cbn; intros H.
    + injection H as <-. constructor.
    + discriminate.
    + destruct ((digit_val a <? 16) && (digit_val b <? 16)) eqn:D; [|discriminate]. apply andb_true_iff in D as [D1 D2].
      destruct (hex_bytes w) as [l'|] eqn:E; [|discriminate]. injection H as <-. apply IH in E.
      constructor; [| |exact E]; apply hex_digit_spec; lia.
  - induction 1 as [|a b x y v l A B _ IH]; [reflexivity|]. cbn. apply hex_digit_spec in A as [-> A], B as [-> B].
    rewrite (proj2 (Z.ltb_lt x 16) A), (proj2 (Z.ltb_lt y 16) B), IH. reflexivity.
Qed.
Lemma without_spaces_spec v w : without_spaces v w <-> w = filter (fun c => negb (is_sp c)) v.
Proof.
  split.
  - induction 1 as [|v w _ ->|c v w N _ ->]; [reflexivity|reflexivity|]. cbn. unfold is_sp. destruct (ch_eqb c " ") eqn:E; [apply ch_eqb_eq in E; contradiction|reflexivity].
  - intros ->. induction v as [|c v IH]; cbn; [constructor|]. unfold is_sp. destruct (ch_eqb c " ") eqn:E; cbn.
    + apply ch_eqb_eq in E. subst. constructor. exact IH.
    + constructor; [|exact IH]. intros ->. discriminate.
Qed.
Lemma bytes_read_spec e v l : data_value e v = Some l <-> bytes_read e v l.
Proof.
  unfold data_value. destruct v as [|c r].
  - split; [intros H; injection H as <-; eapply br_hex; constructor|]. intros H. inversion H as [|? w ? W P]; subst.
    apply without_spaces_spec in W. subst w. apply hex_pairs_spec in P. exact P.
  - destruct (ch_eqb c c_extref) eqn:E; cbn [andb].
    + apply ch_eqb_eq in E. subst c. unfold field_refs_supported. assert (Nh : forall w l', without_spaces (c_extref :: r) w -> ~ hex_pairs w l').
      { intros w l' W P. apply without_spaces_spec in W. cbn in W. subst w. apply hex_pairs_spec in P. cbn in P. destruct (filter _ r); discriminate. }
      destruct (available_cases e 2) as [[-> Y]|[-> Y]].
      * split; [intros H; apply br_ref; assumption|]. intros H. inversion H as [? ? _ G|? w ? W P]; subst; [exact G|]. exfalso. eapply Nh; eassumption.
      * split.
        -- intros H. apply hex_pairs_spec in H. exfalso. eapply Nh; [|exact H]. apply without_spaces_spec. reflexivity.
        -- intros H. inversion H as [? ? A G|? w ? W P]; subst; [contradiction|]. exfalso. eapply Nh; eassumption.
    + split.
      * intros H. apply hex_pairs_spec in H. eapply br_hex; [apply without_spaces_spec; reflexivity|exact H].
      * intros H. inversion H as [? ? A G|? w ? W P]; subst; [discriminate E|]. apply without_spaces_spec in W. subst w. apply hex_pairs_spec. exact P.
Qed.

(** ** Orders *)
Lemma bytes_order a b : bytes_ltb b a = false <-> lex_le (fun z => z) a b.
Proof.
  split.
  - revert b. induction a as [|u a IH]; intros [|v b]; cbn; intros H; try discriminate; [constructor|constructor|].
    apply orb_false_iff in H as [H1 H2]. destruct (v =? u) eqn:E.
    + apply ll_same; [lia|]. apply IH. cbn in H2. exact H2.
    + apply ll_less. lia.
  - induction 1 as [l|u v a b H|u v a b H _ IH]; cbn.
    + destruct l; reflexivity.
    + apply orb_false_iff. split; [lia|]. destruct (v =? u) eqn:E; [lia|reflexivity].
    + rewrite IH, andb_false_r, orb_false_r. lia.
Qed.

Lemma text_order a b : str_ltb b a = false <-> lex_le char_rank a b.
Proof.
  split.
  - revert b. induction a as [|u a IH]; intros [|v b]; cbn; intros H; try discriminate; [constructor|constructor|].
    apply orb_false_iff in H as [H1 H2]. destruct (Ascii.eqb v u) eqn:E.
    + apply Ascii.eqb_eq in E. subst. apply ll_same; [reflexivity|]. apply IH. exact H2.
    + apply ll_less. unfold char_rank. assert (N_of_ascii u <> N_of_ascii v).
      { intros X. apply (f_equal ascii_of_N) in X. rewrite !ascii_N_embedding in X. subst. rewrite Ascii.eqb_refl in E. discriminate. }
      apply N.ltb_ge in H1. lia.
  - induction 1 as [l|u v a b H|u v a b H _ IH]; cbn.
    + destruct l; reflexivity.
    + unfold char_rank in H. apply orb_false_iff. split; [apply N.ltb_ge; lia|]. destruct (Ascii.eqb v u) eqn:E; [|reflexivity].
      apply Ascii.eqb_eq in E. subst. lia.
    + unfold char_rank in H. rewrite IH, andb_false_r, orb_false_r. apply N.ltb_ge. lia.
Qed.
Lemma lex_le_trans {A} (rank : A -> Z) a b c : lex_le rank a b -> lex_le rank b c -> lex_le rank a c.
Proof.
  intros H. revert c. induction H as [l|u v a b H|u v a b H _ IH]; intros c X; [constructor| |].
  - inversion X; subst; [apply ll_less; lia|apply ll_less; lia].
  - inversion X; subst; [apply ll_less; lia|apply ll_same; [lia|auto]].
Qed.
Lemma lex_le_total {A} (rank : A -> Z) a : forall b, lex_le rank a b \/ lex_le rank b a.
Proof.
  induction a as [|u a IH]; intros [|v b]; try (left; constructor; fail); [right; constructor|].
  destruct (Z.lt_trichotomy (rank u) (rank v)) as [H|[H|H]].
  - left. apply ll_less. exact H.
  - destruct (IH b); [left|right]; apply ll_same; auto.
  - right. apply ll_less. lia.
Qed.

(** ** Values *)
Lemma value_child_spec ch v : parseNodeValue ch false = Ok v -> v <> [] -> child_value ch v.
Proof.
  intros H N. assert (X : parseNodeValue ch true = Ok v); [|apply child_value_spec in X; tauto].
  unfold parseNodeValue in *. destruct (is_nil _ && is_nil _) eqn:E; [injection H as <-; contradiction|exact H].
Qed.
Lemma children_have_values l names : forall acc q, childrenAsProps l names true acc = Ok q ->
  forall c, In c l -> mem_str (n_name c) names = true -> exists v, parseNodeValue c true = Ok v.
Proof.
  induction l as [|d l IH]; intros acc q H c I M; [contradiction|]. cbn in H. destruct I as [->|I].
  - rewrite M in H. destruct (parseNodeValue c true) as [v| |]; [eauto|discriminate|discriminate].
  - destruct (mem_str (n_name d) names); [|eapply IH; eassumption].
    destruct (parseNodeValue d true) as [[|a v]| |]; [eapply IH; eassumption|eapply IH; eassumption|discriminate|discriminate].
Qed.
Lemma extra_child_value n extra possible p k ch : field_props n extra possible = Ok p -> mem_str k extra = true -> In ch (parseGetChildrenNamed n k) ->
  exists v, parseNodeValue ch true = Ok v /\ v <> [].
Proof.
  intros H M I. unfold field_props in H. apply bind_Ok in H as (p1 & _ & H). apply bind_Ok in H as (p2 & H & _). unfold parseChildrenAsProps in H.
  assert (Ne : is_nil extra = false) by (destruct extra; [discriminate M|reflexivity]). rewrite Ne in H. apply children_named in I as (I & Ei & En). assert (I2 : In ch (parseGetChildren n)) by (apply filter_In; rewrite Ei; auto). rewrite <- En in M.
  destruct (children_have_values _ _ _ _ H _ I2 M) as [v V]. exists v. split; [exact V|]. apply child_value_spec in V. tauto.
Qed.
Section Values.
Context {A : Type}.
Variables (e : env) (n : node) (p : props) (val : str -> option (list A)) (reads : txt -> list A -> Prop) (lt : list A -> list A -> bool) (rank : A -> Z).
Hypothesis val_spec : forall v a, val v = Some a <-> reads v a.
Hypothesis order : forall a b, lt b a = false <-> lex_le rank a b.
Hypothesis SD : supplied n (L "defaultValue") (values_of p (L "defaultValue")).
Hypothesis SV : supplied n (L "defaultValidValue") (values_of p (L "defaultValidValue")).
Hypothesis HC : forall ch, In ch (parseGetChildrenNamed n (L "validValue")) -> exists v, parseNodeValue ch true = Ok v /\ v <> [].
Lemma values_spec c dflt0 valid0 dflt valid : c_deprecated c <= never ->
  update_values e p n val lt (c_since c) (c_deprecated c) dflt0 valid0 = Ok (dflt, valid) ->
  values_given e n c reads rank dflt0 valid0 dflt valid.
Proof.
  intros D H. unfold update_values in H. set (since := c_since c) in *. set (depr := c_deprecated c) in *.
  apply bind_Ok in H as (u1 & O1 & H). apply bind_Ok in H as (d1 & H1 & H). apply bind_Ok in H as (u2 & O2 & H).
  apply bind_Ok in H as ([d2 vs2] & H2 & H). apply bind_Ok in H as (a & Ha & H). apply bind_Ok in H as (cs & Hc & H). injection H as <- <-.
  pose proof (avail e 7) as Av. unfold valid_value_in_string_supported in *.
  assert (G2 : given n (T "defaultValidValue") (if_available 7 e reads d1) d1 d2 /\
          forall v, In v vs2 <-> In v valid0 \/ available 7 (e_dsl e) /\ exists t a, supplied n (T "defaultValidValue") [t] /\ reads t a /\ v = mkVV a since depr).
  { pose proof O2 as O. apply once_single in O. rewrite find_values in H2. split.
    - change (T "defaultValidValue") with (L "defaultValidValue"). eapply given_find; [exact SV|exact O2|]. rewrite find_values.
      destruct (hd_error (values_of p (L "defaultValidValue"))) as [v|]; [|injection H2 as <- <-; reflexivity].
      destruct (available_cases e 7) as [[E Y]|[E Y]]; rewrite E in H2; cbn [negb] in H2.
      + apply bind_Ok in H2 as (d & Hd & H2). injection H2 as <- <-. left. split; [exact Y|]. apply of_opt_Ok in Hd. apply val_spec. exact Hd.
      + injection H2 as <- <-. right. auto.
    - intros v. pose proof SV as S'. unfold once in O. destruct (values_of p (L "defaultValidValue")) as [|t [|? ?]] eqn:Ev; cbn [hd_error length] in *; [| |lia].
      + injection H2 as <- <-. split; [auto|]. intros [X|(_ & t & b & S2 & _)]; [exact X|]. exfalso.
        pose proof (supplied_det _ _ _ _ S' S2) as X. discriminate X.
      + destruct (available_cases e 7) as [[E Y]|[E Y]]; rewrite E in H2; cbn [negb] in H2.
        * apply bind_Ok in H2 as (d & Hd & H2). injection H2 as <- <-. apply of_opt_Ok in Hd. apply val_spec in Hd as R. rewrite in_app_iff. cbn [In]. split.
          -- intros [X|[<-|[]]]; [auto|]. right. split; [exact Y|]. eauto.
          -- intros [X|(_ & t' & b & S2 & Rb & ->)]; [auto|]. right. left. pose proof (supplied_det _ _ _ _ S' S2) as X. injection X as <-.
             apply val_spec in Rb. congruence.
        * injection H2 as <- <-. split; [auto|]. intros [X|[X _]]; [exact X|contradiction]. }
  destruct G2 as [G2 V2].
  assert (Va : forall v, In v a <-> available 7 (e_dsl e) /\ exists raw l t b, attrs_called (T "validValue") (n_attrs n) (raw :: l) /\ trimmed raw t /\ reads t b /\ v = mkVV b since depr).
  { intros v. rewrite find_values in Ha. destruct (node_props_values n (L "validValue")) as (raw & R1 & R2). rewrite R2 in Ha. destruct raw as [|r raw]; cbn [map hd_error] in Ha.
    - injection Ha as <-. split; [intros []|]. intros (_ & r & l & t & b & R & _). pose proof (attrs_called_det _ _ _ _ R1 R) as X. discriminate X.
    - destruct (available_cases e 7) as [[E Y]|[E Y]]; rewrite E in Ha; cbn [negb] in Ha.
      + apply bind_Ok in Ha as (d & Hd & Ha). injection Ha as <-. apply of_opt_Ok in Hd. cbn [In]. split.
        * intros [<-|[]]. split; [exact Y|]. exists r, raw, (trim r), d. split; [exact R1|]. split; [apply trim_trimmed|]. split; [apply val_spec; exact Hd|reflexivity].
        * intros (_ & r' & l & t & b & R & Tr & Rb & ->). left. pose proof (attrs_called_det _ _ _ _ R1 R) as X. injection X as <- <-.
          apply trimmed_det with (1 := trim_trimmed r) in Tr. subst t. apply val_spec in Rb. congruence.
      + injection Ha as <-. split; [intros []|]. intros [X _]. contradiction. }
  assert (Vc : forall v, In v (concat cs) <-> available 7 (e_dsl e) /\ exists ch t b q sv dv, In ch (parseGetChildrenNamed n (L "validValue")) /\
     parseNodeValue ch false = Ok t /\ reads t b /\ parseChildrenAsProps ch [L "sinceVersion"; L "deprecated"] true (parseNodeProps ch) = Ok q /\
     parseGetAndCheckVersions (e_version e) q (since, depr) = Ok (sv, dv) /\ v = mkVV b sv dv).
  { intros v. rewrite in_concat. split.
    - intros (l & Hl & Hv). destruct (mapM_In _ _ _ _ Hc Hl) as (ch & Ich & E). apply bind_Ok in E as (t & Et & E).
      destruct (available_cases e 7) as [[X Y]|[X Y]]; rewrite X in E; cbn [negb] in E; [|injection E as <-; contradiction].
      apply bind_Ok in E as (b & Eb & E). apply bind_Ok in E as ([sv dv] & Ev & E). injection E as <-. destruct Hv as [<-|[]].
      unfold parseGetAndCheckVersionsNode in Ev. apply bind_Ok in Ev as (q & Hq & Ev). apply of_opt_Ok in Eb. apply val_spec in Eb.
      split; [exact Y|]. exists ch, t, b, q, sv, dv. auto 10.
    - intros (Y & ch & t & b & q & sv & dv & Ich & Et & Rb & Hq & Ev & ->). destruct (mapM_In_fwd _ _ _ _ Hc Ich) as (l & Hl & E).
      apply bind_Ok in E as (t' & Et' & E). assert (t' = t) by congruence. subst t'.
      destruct (available_cases e 7) as [[X Y']|[X Y']]; [|contradiction]. rewrite X in E. cbn [negb] in E.
      apply bind_Ok in E as (b' & Eb & E). apply of_opt_Ok in Eb. apply val_spec in Rb. assert (b' = b) by congruence. subst b'.
      apply bind_Ok in E as ([sv' dv'] & Ev' & E). unfold parseGetAndCheckVersionsNode in Ev'. rewrite Hq in Ev'. cbn [bind] in Ev'. rewrite Ev in Ev'. injection Ev' as <- <-.
      injection E as <-. exists [mkVV b sv dv]. split; [exact Hl|left; reflexivity]. }
  constructor.
  - exists d1. split; [|exact G2]. change (T "defaultValue") with (L "defaultValue"). eapply given_find; [exact SD|exact O1|].
    destruct (find_prop p (L "defaultValue")); [apply of_opt_Ok in H1; apply val_spec; exact H1|injection H1 as <-; reflexivity].
  - intros v. rewrite sort_In, !in_app_iff, V2, Va, Vc. split.
    + intros [[X|(Y & t & b & S & R & ->)]|[(Y & raw & l & t & b & R1 & R2 & R3 & ->)|(Y & ch & t & b & q & sv & dv & I & E & R & Q & Ev & ->)]]; [auto| | |];
        right; (split; [exact Y|]).
      * eapply lv_default; eassumption.
      * eapply lv_attr; eassumption.
      * destruct (HC _ I) as (t' & Et & Nt). assert (t' = t).
        { unfold parseNodeValue in *. destruct (is_nil _ && is_nil _); [discriminate|congruence]. } subst t'.
        pose proof I as I'. apply children_named in I' as (Ic & Ei & En). destruct ch as [nm ats l| |]; try discriminate Ei. cbn in En. subst nm.
        apply versions_spec in Ev as (V1 & V3 & V4); [|exact D]. rewrite !find_values in V1, V3.
        eapply lv_child; [exact Ic|apply child_value_spec; exact Et|exact R|eapply element_props_supplied; [exact Q|discriminate|left; reflexivity]|
          eapply element_props_supplied; [exact Q|discriminate|right; left; reflexivity]|exact V1|exact V3|exact V4].
    + intros [X|(Y & X)]; [auto|]. inversion X as [t b S R E|raw l t b R1 R2 R3 E|ats l t b ss ds sv dv I Cv R S1 S2 V1 V3 V4 E]; subst.
      * left. right. split; [exact Y|]. eauto.
      * right. left. split; [exact Y|]. exists raw, l, t, b. auto.
      * right. right. split; [exact Y|]. set (ch := Elem (T "validValue") ats l) in *.
        assert (I' : In ch (parseGetChildrenNamed n (L "validValue"))) by (apply children_named_in; [exact I|reflexivity|reflexivity]).
        destruct (HC _ I') as (t' & Et & Nt). pose proof Et as Cv'. apply child_value_spec in Cv' as [Cv' _]. assert (t' = t) by (eapply child_value_det; eassumption). subst t'.
        destruct (mapM_In_fwd _ _ _ _ Hc I') as (l' & Hl & E). apply bind_Ok in E as (t' & Et' & E).
        destruct (available_cases e 7) as [[X' Y']|[X' Y']]; [|contradiction]. rewrite X' in E. cbn [negb] in E.
        apply bind_Ok in E as (b' & Eb & E). apply bind_Ok in E as ([sv' dv'] & Ev & E). unfold parseGetAndCheckVersionsNode in Ev.
        apply bind_Ok in Ev as (q & Hq & Ev). exists ch, t, b, q, sv, dv. split; [exact I'|]. split.
        { unfold parseNodeValue in *. destruct (is_nil _ && is_nil _); [discriminate|exact Et]. }
        split; [exact R|]. split; [exact Hq|]. split; [|reflexivity]. apply versions_spec; [exact D|]. rewrite !find_values.
        assert (Q1 : supplied ch (L "sinceVersion") (values_of q (L "sinceVersion"))) by (eapply element_props_supplied; [exact Hq|discriminate|left; reflexivity]).
        assert (Q2 : supplied ch (L "deprecated") (values_of q (L "deprecated"))) by (eapply element_props_supplied; [exact Hq|discriminate|right; left; reflexivity]).
        rewrite (supplied_det _ _ _ _ Q1 S1), (supplied_det _ _ _ _ Q2 S2). auto.
  - eapply (SS_impl _ _ (fun _ => True)); [|apply Forall_forall; auto|apply (sort_sorted (fun v w => lt (vv_value v) (vv_value w)) (fun _ => True))].
    + intros v w _ _ X. apply order. exact X.
    + intros v w _ _ X. apply order. destruct (lex_le_total rank (vv_value v) (vv_value w)) as [Y|Y]; [exact Y|]. apply order in Y. congruence.
    + intros u v w _ _ _ X Y. apply order. apply order in X, Y. eapply lex_le_trans; eassumption.
    + apply Forall_forall; auto.
Qed.
End Values.
Lemma depr_never fl e x n f : x_depr x <= never -> field_parse fl e x n = Ok f -> c_deprecated (f_common f) <= never.
Proof.
  intros D H. apply field_versions in H as (ss & ds & _ & _ & A & B). assert (Dec : member_parent x \/ ~ member_parent x).
  { unfold member_parent. destruct (x_parent x); tauto. }
  destruct Dec as [M|M]; [|rewrite (proj2 (B M)); lia]. destruct (A M) as (_ & _ & V). destruct (V D) as (_ & _ & V' & _). lia.
Qed.
Lemma length_given n p old pre zero l : supplied n (L "length") (values_of p (L "length")) -> update_fixed_length p old pre zero = Ok l ->
  given n (T "length") length_text old l.
Proof.
  intros S H. unfold update_fixed_length in H. apply bind_Ok in H as (u & O & H). change (T "length") with (L "length"). eapply given_find; [exact S|exact O|].
  destruct (find_prop p (L "length")) as [v|]; [|injection H as <-; reflexivity]. apply bind_Ok in H as (z & Hz & H). apply bind_Ok in H as (u' & G & H).
  apply of_opt_Ok in Hz. apply unsigned_spec in Hz. apply guard_Ok in G. assert (l = z).
  { destruct (old =? z) eqn:E; [injection H as <-; lia|]. apply bind_Ok in H as (u2 & _ & H). injection H as <-. reflexivity. }
  subst l. split; [exact Hz|]. lia.
Qed.
Lemma string_attributes fl e x n c s pre : x_depr x <= never -> field_parse fl e x n = Ok (FString c s pre) ->
  exists old, reuses e n old /\ (forall g, old = Some g -> f_kind g = KString) /\ string_given e n c (of_string old) s.
Proof.
  intros D H. pose proof (depr_never _ _ _ _ _ D H) as Dn. cbn [f_common] in Dn.
  apply kind_steps in H as (fuel & p & c0 & old & repl & c' & Hp & R & K & H). cbn [f_kind] in *. exists old. split; [exact R|]. split; [exact K|].
  assert (S : forall k, mem_str k string_props = true -> mem_str k common_props = false -> k <> L "lengthPrefix" -> supplied n k (values_of p k)).
  { intros k A B C. eapply extra_supplied; [exact Hp|exact A|exact B|]. unfold possible_props. cbn [mem_str existsb]. rewrite orb_false_r. apply str_eqb_neq. exact C. }
  assert (HC : forall ch, In ch (parseGetChildrenNamed n (L "validValue")) -> exists v, parseNodeValue ch true = Ok v /\ v <> []).
  { intros ch I. eapply (extra_child_value n _ _ p (L "validValue")); [exact Hp|reflexivity|exact I]. }
  clear Hp R K. unfold kind_parse in H. apply bind_Ok in H as (u & _ & H). unfold string_parse in H.
  assert (E0 : exists s0 pre0, match match old with Some (FString _ s q) => Some (s, clone_sub q) | _ => None end with Some o => o | None => (mkString [] [] 0 [] [] false, None) end = (s0, pre0) /\
     s0 = match of_string old with Some s => s | None => mkString [] [] 0 [] [] false end).
  { destruct old as [[]|]; cbn; eauto. }
  destruct E0 as (s0 & pre0 & E & E0). rewrite E in H. clear E.
  apply bind_Ok in H as (enc & H1 & H). apply bind_Ok in H as (len & H2 & H). apply bind_Ok in H as (pr & H3 & H). apply bind_Ok in H as (u' & H4 & H).
  apply bind_Ok in H as (zero & H5 & H). apply bind_Ok in H as ([d vs] & H6 & H). injection H as <- <- <-.
  eapply values_spec in H6; [|apply text_read_spec|apply text_order|apply S; (reflexivity || discriminate)|apply S; (reflexivity || discriminate)|exact HC|exact Dn].
  assert (Hk : forall B (get : string_state -> B) dd, get (mkString [] [] 0 [] [] false) = dd -> get s0 = kept (of_string old) get dd).
  { intros B get dd <-. subst s0. destruct (of_string old); reflexivity. }
  constructor; cbn [st_encoding st_length st_zeroSuffix st_default st_valid].
  - rewrite <- (Hk _ st_encoding [] eq_refl). eapply given_string; [apply S; (reflexivity || discriminate)|exact H1].
  - rewrite <- (Hk _ st_length 0 eq_refl). eapply length_given; [apply S; (reflexivity || discriminate)|exact H2].
  - rewrite <- (Hk _ st_zeroSuffix false eq_refl). unfold update_zero_term in H5. apply bind_Ok in H5 as (u2 & O & H5). change (T "zeroTermSuffix") with (L "zeroTermSuffix").
    eapply given_find; [apply S; (reflexivity || discriminate)|exact O|]. destruct (find_prop p (L "zeroTermSuffix")) as [v|]; [|injection H5 as <-; reflexivity].
    apply bind_Ok in H5 as (b & Hb & H5). apply of_opt_Ok in Hb. apply bool_text_spec in Hb. assert (zero = b); [|subst; exact Hb].
    destruct (_ && b); [apply bind_Ok in H5 as (u3 & _ & H5)|]; injection H5 as <-; reflexivity.
  - rewrite <- (Hk _ st_default [] eq_refl), <- (Hk _ st_valid [] eq_refl). exact H6.
Qed.
Lemma data_attributes fl e x n c s pre : x_depr x <= never -> field_parse fl e x n = Ok (FData c s pre) ->
  exists old, reuses e n old /\ (forall g, old = Some g -> f_kind g = KData) /\ data_given e n c (of_data old) s.
Proof.
  intros D H. pose proof (depr_never _ _ _ _ _ D H) as Dn. cbn [f_common] in Dn.
  apply kind_steps in H as (fuel & p & c0 & old & repl & c' & Hp & R & K & H). cbn [f_kind] in *. exists old. split; [exact R|]. split; [exact K|].
  assert (S : forall k, mem_str k data_props = true -> mem_str k common_props = false -> k <> L "lengthPrefix" -> supplied n k (values_of p k)).
  { intros k A B C. eapply extra_supplied; [exact Hp|exact A|exact B|]. unfold possible_props. cbn [mem_str existsb]. rewrite orb_false_r. apply str_eqb_neq. exact C. }
  assert (HC : forall ch, In ch (parseGetChildrenNamed n (L "validValue")) -> exists v, parseNodeValue ch true = Ok v /\ v <> []).
  { intros ch I. eapply (extra_child_value n _ _ p (L "validValue")); [exact Hp|reflexivity|exact I]. }
  clear Hp R K. unfold kind_parse in H. apply bind_Ok in H as (u & _ & H). unfold data_parse in H.
  assert (E0 : exists s0 pre0, match match old with Some (FData _ s q) => Some (s, clone_sub q) | _ => None end with Some o => o | None => (mkData [] 0 [] [], None) end = (s0, pre0) /\
     s0 = match of_data old with Some s => s | None => mkData [] 0 [] [] end).
  { destruct old as [[]|]; cbn; eauto. }
  destruct E0 as (s0 & pre0 & E & E0). rewrite E in H. clear E.
  apply bind_Ok in H as (len & H2 & H). apply bind_Ok in H as (pr & H3 & H). apply bind_Ok in H as (u' & H4 & H). apply bind_Ok in H as ([d vs] & H6 & H). injection H as <- <- <-.
  eapply values_spec in H6; [|apply bytes_read_spec|apply bytes_order|apply S; (reflexivity || discriminate)|apply S; (reflexivity || discriminate)|exact HC|exact Dn].
  assert (Hk : forall B (get : data_state -> B) dd, get (mkData [] 0 [] []) = dd -> get s0 = kept (of_data old) get dd).
  { intros B get dd <-. subst s0. destruct (of_data old); reflexivity. }
  constructor; cbn [d_length d_default d_valid].
  - rewrite <- (Hk _ d_length 0 eq_refl). eapply length_given; [apply S; (reflexivity || discriminate)|exact H2].
  - rewrite <- (Hk _ d_default [] eq_refl), <- (Hk _ d_valid [] eq_refl). exact H6.
Qed.

(** ** Composite fields *)
Lemma list_attributes fl e x n c s el a b d t : field_parse fl e x n = Ok (FList c s el a b d t) ->
  exists old, reuses e n old /\ (forall g, old = Some g -> f_kind g = KList) /\ list_given e n (of_list old) s /\
    (l_elemFixedLength s = true -> max_length (snd el) = Ok (min_length (snd el))).
Proof.
  intros H. apply kind_steps in H as (fuel & p & c0 & old & repl & c' & Hp & R & K & H). cbn [f_kind] in *. exists old. split; [exact R|]. split; [exact K|].
  assert (S : forall k, mem_str k list_props = true -> mem_str k common_props = false -> mem_str k list_possible = false -> supplied n k (values_of p k)).
  { intros k A B C. eapply extra_supplied; [exact Hp|exact A|exact B|exact C]. }
  clear Hp R K. unfold kind_parse in H. apply bind_Ok in H as (u & _ & H). unfold list_parse in H.
  match type of H with match ?q with _ => _ end = _ => assert (E0 : fst (fst (fst (fst (fst q)))) = match of_list old with Some s => s | None => mkList 0 [] [] [] [] false end)
    by (destruct old as [[| | | | | | | |? ? [? ?] ? ? ? ?| | |]|]; reflexivity); destruct q as [[[[[s0 elem0] cnt0] len0] elen0] term0] end. cbn [fst] in E0.
  apply bind_Ok in H as (el1 & H1 & H). apply bind_Ok in H as (el2 & H2 & H). apply bind_Ok in H as (elem & H3 & H). cbv zeta in H.
  apply bind_Ok in H as (count & H4 & H). apply bind_Ok in H as (cnt & H5 & H). apply bind_Ok in H as (u1 & H6 & H). apply bind_Ok in H as (len & H7 & H).
  apply bind_Ok in H as (u2 & H8 & H). apply bind_Ok in H as (fixed & H9 & H). apply bind_Ok in H as (elen & H10 & H). apply bind_Ok in H as (u3 & H11 & H).
  apply bind_Ok in H as (term & H12 & H). apply bind_Ok in H as (u4 & H13 & H). injection H as <- <- <- <- <- <- <-.
  assert (Hk : forall B (get : list_state -> B) dd, get (mkList 0 [] [] [] [] false) = dd -> get s0 = kept (of_list old) get dd).
  { intros B get dd <-. subst s0. destruct (of_list old); reflexivity. }
  unfold update_elem_fixed in H9. apply bind_Ok in H9 as (u5 & O & H9). apply bind_Ok in H9 as (fx & Hfx & H9).
  assert (fixed = fx /\ (fx = true -> max_length (snd elem) = Ok (min_length (snd elem)))) as [-> Hl].
  { destruct fx; [|injection H9 as <-; split; [reflexivity|discriminate]]. apply bind_Ok in H9 as (m & Hm & H9). apply bind_Ok in H9 as (u6 & G & H9). injection H9 as <-.
    split; [reflexivity|]. intros _. apply guard_Ok in G. rewrite Hm. f_equal. lia. }
  split; [|exact Hl]. constructor; cbn [l_count l_elemFixedLength].
  - rewrite <- (Hk _ l_count 0 eq_refl). unfold update_count in H4. apply bind_Ok in H4 as (u7 & O4 & H4). change (T "count") with (L "count").
    eapply given_find; [apply S; reflexivity|exact O4|]. destruct (find_prop p (L "count")) as [v|]; [|injection H4 as <-; reflexivity].
    apply bind_Ok in H4 as (z & Hz & H4). apply bind_Ok in H4 as (u8 & G & H4). injection H4 as <-. apply of_opt_Ok in Hz. apply unsigned_spec in Hz.
    apply guard_Ok in G. split; [exact Hz|]. lia.
  - rewrite <- (Hk _ l_elemFixedLength false eq_refl). change (T "elemFixedLength") with (L "elemFixedLength"). eapply given_find; [apply S; reflexivity|exact O|].
    destruct (find_prop p (L "elemFixedLength")); [apply of_opt_Ok in Hfx; apply bool_text_spec; exact Hfx|injection Hfx as <-; reflexivity].
Qed.
Lemma optional_attributes fl e x n c s own f cnd : field_parse fl e x n = Ok (FOptional c s own f cnd) ->
  exists old, reuses e n old /\ (forall g, old = Some g -> f_kind g = KOptional) /\ optional_given e n (of_opt_field old) s.
Proof.
  intros H. apply kind_steps in H as (fuel & p & c0 & old & repl & c' & Hp & R & K & H). cbn [f_kind] in *. exists old. split; [exact R|]. split; [exact K|].
  assert (S : forall k, mem_str k optional_props = true -> mem_str k common_props = false -> mem_str k [L "field"] = false -> supplied n k (values_of p k)).
  { intros k A B C. eapply extra_supplied; [exact Hp|exact A|exact B|exact C]. }
  clear Hp R K. unfold kind_parse in H. apply bind_Ok in H as (u & _ & H). unfold optional_parse in H.
  match type of H with match ?q with _ => _ end = _ => assert (E0 : fst (fst q) = match of_opt_field old with Some s => s | None => mkOpt Tentative false false end)
    by (destruct old as [[]|]; reflexivity); destruct q as [[s0 f0] cond0] end. cbn [fst] in E0.
  apply bind_Ok in H as (mode & H1 & H). apply bind_Ok in H as (mrf & H2 & H). apply bind_Ok in H as (moi & H3 & H). apply bind_Ok in H as (f1 & H4 & H).
  apply bind_Ok in H as (f2 & H5 & H). apply bind_Ok in H as (f3 & H6 & H). apply bind_Ok in H as (cn & H7 & H). injection H as <- <- <- <- <-.
  assert (Hk : forall B (get : opt_state -> B) dd, get (mkOpt Tentative false false) = dd -> get s0 = kept (of_opt_field old) get dd).
  { intros B get dd <-. subst s0. destruct (of_opt_field old); reflexivity. }
  constructor; cbn [o_mode o_missingOnReadFail o_missingOnInvalid].
  - rewrite <- (Hk _ o_mode Tentative eq_refl). unfold update_mode in H1. apply bind_Ok in H1 as (u1 & O & H1). change (T "defaultMode") with (L "defaultMode").
    eapply given_find; [apply S; reflexivity|exact O|]. destruct (find_prop p (L "defaultMode")); [|injection H1 as <-; reflexivity].
    apply of_opt_Ok in H1. apply mode_text_spec. exact H1.
  - rewrite <- (Hk _ o_missingOnReadFail false eq_refl). eapply given_bool_since; [apply S; reflexivity|reflexivity|exact H2].
  - rewrite <- (Hk _ o_missingOnInvalid false eq_refl). eapply given_bool_since; [apply S; reflexivity|reflexivity|exact H3].
Qed.
Lemma bitfield_attributes fl e x n c en ms vc : field_parse fl e x n = Ok (FBitfield c en ms vc) ->
  exists old, reuses e n old /\ (forall g, old = Some g -> f_kind g = KBitfield) /\ bitfield_given e n (of_bitfield old) en.
Proof.
  intros H. apply kind_steps in H as (fuel & p & c0 & old & repl & c' & Hp & R & K & H). cbn [f_kind] in *. exists old. split; [exact R|]. split; [exact K|].
  assert (S : supplied n (L "endian") (values_of p (L "endian"))) by (eapply extra_supplied; [exact Hp|reflexivity|reflexivity|reflexivity]).
  clear Hp R K. unfold kind_parse in H.
  match type of H with match ?q with _ => _ end = _ => assert (E0 : fst (fst q) = of_bitfield old) by (destruct old as [[]|]; reflexivity); destruct q as [[en0 ms0] vc0] end. cbn [fst] in E0. subst en0.
  apply bind_Ok in H as (ms1 & H1 & H). unfold bitfield_parse in H. apply bind_Ok in H as (en1 & H2 & H). apply bind_Ok in H as (ms2 & H3 & H). apply bind_Ok in H as (vc1 & H4 & H).
  injection H as <- <- <- <-. eapply endian_given in H2; [|exact S]. unfold bitfield_given. destruct (of_bitfield old); exact H2.
Qed.
Lemma index_named_spec k ms : forall i z, index_named k i ms = Some z <-> exists j m, z = i + Z.of_nat j /\ nth_error ms j = Some m /\ f_name m = k /\
  forall j' m', (j' < j)%nat -> nth_error ms j' = Some m' -> f_name m' <> k.
Proof.
  induction ms as [|m ms IH]; intros i z; cbn.
  - split; [discriminate|]. intros (j & m & _ & H & _). destruct j; discriminate.
  - destruct (str_eqb k (f_name m)) eqn:E.
    + apply str_eqb_eq in E. split.
      * intros H. injection H as <-. exists 0%nat, m. split; [lia|]. split; [reflexivity|]. split; [auto|]. intros j' m' L. lia.
      * intros (j & m1 & -> & Hj & Hk & Hf). destruct j; [f_equal; lia|]. exfalso. eapply (Hf 0%nat m); [lia|reflexivity|auto].
    + apply str_eqb_neq in E. rewrite IH. split.
      * intros (j & m1 & -> & Hj & Hk & Hf). exists (S j), m1. split; [lia|]. split; [exact Hj|]. split; [exact Hk|]. intros [|j'] m' L X; [injection X as <-; auto|].
        eapply Hf; [|exact X]. lia.
      * intros (j & m1 & -> & Hj & Hk & Hf). destruct j as [|j]; [injection Hj as <-; congruence|]. exists j, m1. split; [lia|]. split; [exact Hj|]. split; [exact Hk|].
        intros j' m' L X. eapply (Hf (S j')); [lia|exact X].
Qed.
Lemma variant_attributes fl e x n c d ms : field_parse fl e x n = Ok (FVariant c d ms) ->
  exists old, reuses e n old /\ (forall g, old = Some g -> f_kind g = KVariant) /\ variant_given e n ms (of_variant old) d.
Proof.
  intros H. apply kind_steps in H as (fuel & p & c0 & old & repl & c' & Hp & R & K & H). cbn [f_kind] in *. exists old. split; [exact R|]. split; [exact K|].
  assert (S : supplied n (L "defaultMember") (values_of p (L "defaultMember"))) by (eapply extra_supplied; [exact Hp|reflexivity|reflexivity|reflexivity]).
  clear Hp R K. unfold kind_parse in H.
  match type of H with match ?q with _ => _ end = _ => assert (E0 : snd q = kept (of_variant old) (fun x => x) None) by (destruct old as [[]|]; reflexivity); destruct q as [ms0 d0] end. cbn [snd] in E0.
  apply bind_Ok in H as (ms1 & H1 & H). unfold variant_parse in H. apply bind_Ok in H as (ms2 & H2 & H). apply bind_Ok in H as (d2 & H3 & H).
  injection H as <- <- <-. unfold variant_given. rewrite <- E0. unfold update_default_member in H3. apply bind_Ok in H3 as (u & O & H3). cbv zeta in H3.
  change (T "defaultMember") with (L "defaultMember"). eapply given_get; [exact S|exact O| |].
  - intros E. rewrite E in H3. cbn in H3. injection H3 as <-. reflexivity.
  - intros E. destruct (get_prop p (L "defaultMember")) as [|a v0] eqn:G; [contradiction|]. cbn [is_nil] in H3. rewrite <- G in *. clear E. set (v := get_prop p (L "defaultMember")) in *. clearbody v.
    destruct (parseIsValidName v) eqn:Vn.
    + apply parseIsValidName_spec in Vn. apply bind_Ok in H3 as (z & Hz & H3). injection H3 as <-. apply of_opt_Ok in Hz. apply index_named_spec in Hz as (j & m & -> & Hj & Hk & Hf).
      rewrite Z.add_0_l. eapply mt_name; eassumption.
    + assert (Nn : ~ identifier v) by (rewrite <- parseIsValidName_spec; congruence). apply bind_Ok in H3 as (z & Hz & H3). apply of_opt_Ok in Hz.
      assert (I : index_text e v z).
      { destruct (parseIsValidRefName v) eqn:Vr; [apply it_value; [apply parseIsValidRefName_spec; exact Vr|exact Hz]|].
        apply it_number; [|apply stoll_spec; exact Hz]. intros X. apply parseIsValidRefName_spec in X. congruence. }
      destruct (z <? 0) eqn:Z0; [injection H3 as <-; eapply mt_none; [exact Nn|exact I|lia]|].
      apply bind_Ok in H3 as (u1 & Gd & H3). injection H3 as <-. apply guard_Ok in Gd. apply mt_index; [exact Nn|exact I|lia].
Qed.
Lemma ref_attributes fl e x n c b t : field_parse fl e x n = Ok (FRef c b t) ->
  exists old c1, reuses e n old /\ (forall g, old = Some g -> f_kind g = KRef) /\ common_given e n old c1 /\
   ((exists v, supplied n (T "field") [v] /\ e_find e v = Some t /\ named_after e (f_common t) c1 c) \/
    (exists c2, supplied n (T "field") [] /\ old = Some (FRef c2 b t) /\ c = c1)).
Proof.
  intros H. pose proof H as X. apply field_parse_inv in H as (fuel & k & p & c0 & old & repl & c1 & _ & Hk & Hp & Hr & Hrep & Hc & Hkp & _).
  pose proof Hkp as E. apply kind_parse_common in E as (E & _). cbn in E. subst k. destruct (reuse_facts _ _ _ _ _ _ _ Hp Hr) as (R & K & _).
  exists old, c1. split; [exact R|]. split; [exact K|]. split; [eapply common_given_spec; eassumption|].
  assert (S : supplied n (L "field") (values_of p (L "field"))) by (eapply extra_supplied; [exact Hp|reflexivity|reflexivity|reflexivity]).
  unfold kind_parse in Hkp. apply bind_Ok in Hkp as (u & _ & H). unfold ref_parse in H. apply bind_Ok in H as (u1 & O & H). rewrite find_values in H. apply once_single in O. revert S O H. unfold once.
  destruct (values_of p (L "field")) as [|v [|? ?]]; cbn [hd_error length]; intros S O H; [| |lia].
  - right. destruct old as [g|]; [|discriminate]. destruct g; try discriminate H. injection H as <- <- <-. eauto.
  - left. exists v. apply bind_Ok in H as (t' & Ht & H). apply bind_Ok in H as (b' & Hb & H). cbv zeta in H. injection H as <- <- <-. apply of_opt_Ok in Ht.
    split; [exact S|]. split; [exact Ht|]. constructor; cbn; auto 12.
    + destruct (c_name c1) as [|a w]; cbn [is_nil]; [right; auto|left; split; [discriminate|reflexivity]].
    + destruct (c_displayName c1) as [|a w]; cbn [is_nil]; [right; auto|left; split; [discriminate|reflexivity]].
    + unfold sem_ref_inheritance_supported. destruct (available_cases e 2) as [[-> Y]|[-> Y]];
      destruct (c_sem c1); destruct (c_sem (f_common t')); try (left; split; [reflexivity|]; split; [reflexivity|]; split; [discriminate|exact Y]);
        right; (split; [reflexivity|]); auto; left; discriminate.
Qed.
