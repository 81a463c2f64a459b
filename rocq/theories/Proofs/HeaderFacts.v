(** Properties and platforms of schemas over several files (C31, C33). *)
From Coq Require Import Sorting.Sorted Sorting.Permutation.
From Verif.Model Require Import Base Common Xml Units Field FieldCommon IntField EnumField SetField FloatField OptCond Composite Message Frame Protocol.
From Verif.Spec Require Import Texts IntSpec XmlSpec FieldSpec ProtocolSpec DeclSpec PlatformSpec.
From Verif.Proofs Require Import BaseFacts CommonFacts RangeFacts XmlFacts FieldInv FieldFacts OwnFacts MapFacts ProtocolFacts RefFacts DeclFacts AllFacts.

(** a schema without its namespaces *)
Definition face (sc : schema) : schema := set_sc_ns [] sc.
Lemma schema_child_face s n s' : schema_child s n = Ok s' -> map face (pr_schemas s') = map face (pr_schemas s) /\ pr_cur s' = pr_cur s.
Proof.
  assert (P : forall k x, map face (pr_schemas (put_ns k x s)) = map face (pr_schemas s) /\ pr_cur (put_ns k x s) = pr_cur s).
  { intros k x. split; [|reflexivity]. unfold put_ns, set_cur. cbn [pr_schemas]. apply (set_nth_map face _ _ _ no_schema). reflexivity. }
  intros H. unfold schema_child in H. destruct (str_eqb (n_name n) (L "ns")).
  - apply bind_Ok in H as ([[name dn] de] & _ & H). apply bind_Ok in H as (ns & _ & H). injection H as <-. apply P.
  - apply bind_Ok in H as (g & _ & H). injection H as <-. apply P.
Qed.
Lemma schema_name_once s d s1 : names_ok s -> validate_schema s d = Ok s1 ->
  (exists vs, supplied d (L "name") vs /\ sc_name (cur_schema s1) = (if is_nil (hd [] vs) then sc_name (cur_schema s) else hd [] vs)) /\ sc_name (cur_schema s1) <> [].
Proof.
  intros N H. edestruct (validate_schema_elems ns_fields None (L "fields")) as (A & B & _); [..|exact N|exact H|split; assumption];
    first [intros ? ? []; reflexivity | reflexivity | intros ? [= <-]; reflexivity | discriminate | intros ? []; reflexivity | intros ? ?; discriminate].
Qed.
(** what the properties say *)
Record header_ok (sc : schema) : Prop := {
  h_name : sc_name sc = get_prop (sc_props sc) (L "name");
  h_descr : sc_description sc = get_prop (sc_props sc) (L "description");
  h_id : unsigned_prop (sc_props sc) (L "id") = Ok (sc_id sc);
  h_version : unsigned_prop (sc_props sc) (L "version") = Ok (sc_version sc);
  h_dsl : unsigned_prop (sc_props sc) (L "dslVersion") = Ok (sc_dsl sc);
  h_endian : parseEndian (get_prop (sc_props sc) (L "endian")) Little = Some (sc_endian sc);
  h_nonu : match find_prop (sc_props sc) (L "nonUniqueMsgIdAllowed") with None => Ok false | Some v => of_opt (parseStrToBool v) end = Ok (sc_nonUnique sc);
  h_dname : sc_displayName sc = if (0 <? sc_dsl sc) && (sc_dsl sc <? 7) then [] else get_prop (sc_props sc) (L "displayName") }.
Lemma schema_parse_header n sc : schema_parse n = Ok sc -> header_ok sc /\ sc_ns sc = [] /\ sc_platforms sc = [] /\
  parseChildrenAsProps n schema_props true (parseNodeProps n) = Ok (sc_props sc).
Proof.
  unfold schema_parse. intros H. apply bind_Ok in H as (p & Hp & H). apply bind_Ok in H as (id & Hid & H). apply bind_Ok in H as (ver & Hver & H).
  apply bind_Ok in H as (dsl & Hdsl & H). apply bind_Ok in H as (en & Hen & H). apply of_opt_Ok in Hen. apply bind_Ok in H as (nu & Hnu & H). apply bind_Ok in H as (u & _ & H).
  assert (E : sc = mkSchema (get_prop p (L "name")) (if (0 <? dsl) && (dsl <? 7) then [] else get_prop p (L "displayName")) (get_prop p (L "description")) id ver dsl en nu p [] []) by congruence.
  rewrite E. split; [constructor; cbn [sc_name sc_props sc_description sc_id sc_version sc_dsl sc_endian sc_nonUnique sc_displayName]; auto|]. auto.
Qed.
Definition agrees (d : node) (sc : schema) : Prop :=
  forall k v vs, In k schema_props -> supplied d k (v :: vs) -> find_prop (sc_props sc) k = Some v.
Lemma schema_prop_supplied d sc k : schema_parse d = Ok sc -> In k schema_props -> supplied d k (values_of (sc_props sc) k).
Proof.
  intros H K. apply schema_parse_header in H as (_ & _ & _ & H). eapply element_props_supplied; [exact H| |exact K]. intros ->.
  apply mem_str_In in K. vm_compute in K. discriminate.
Qed.
Lemma agrees_self d sc : schema_parse d = Ok sc -> agrees d sc.
Proof.
  intros H k v vs K S. pose proof (supplied_det _ _ _ _ S (schema_prop_supplied _ _ _ H K)) as E. rewrite find_values, <- E. reflexivity.
Qed.
Lemma find_prop_In p k v : find_prop p k = Some v -> In (k, v) p.
Proof.
  induction p as [|[k' w] p IH]; cbn; [discriminate|]. destruct (str_eqb k' k) eqn:E; [|auto]. apply str_eqb_eq in E as ->. intros [= ->]. auto.
Qed.
Lemma platform_children d m : In m (flat_map parseGetChildren (parseGetChildrenNamed d (L "platforms"))) <->
  is_elem m = true /\ exists q, In q (n_children d) /\ n_name q = L "platforms" /\ is_elem q = true /\ In m (n_children q).
Proof.
  rewrite in_flat_map. split.
  - intros (q & Q & M). unfold parseGetChildrenNamed, parseGetChildrenOf in Q. apply filter_In in Q as [Q1 Q2]. apply andb_true_iff in Q2 as [Q2 Q3]. cbn in Q3.
    rewrite orb_false_r in Q3. apply str_eqb_eq in Q3. rewrite get_children_filter in M. apply filter_In in M as [M1 M2]. split; [exact M2|]. exists q. auto.
  - intros (E & q & Q1 & Q2 & Q3 & M). exists q. split; [|rewrite get_children_filter; apply filter_In; auto]. apply filter_In. split; [exact Q1|]. rewrite Q3, Q2. vm_compute. reflexivity.
Qed.
Lemma single_children d k m : In m (parseGetChildrenNamed d k) <-> is_elem m = true /\ In m (n_children d) /\ n_name m = k.
Proof.
  unfold parseGetChildrenNamed, parseGetChildrenOf. rewrite filter_In. cbn. rewrite orb_false_r, andb_true_iff, str_eqb_eq. tauto.
Qed.
Lemma platform_name l m l' : validate_platform l m = Ok l' -> exists x vs, supplied m (L "name") (x :: vs) /\ forall y, In y l' <-> y = x \/ In y l.
Proof.
  unfold validate_platform. intros H. apply bind_Ok in H as (p & Hp & H). apply bind_Ok in H as (x & Hx & H). apply of_opt_Ok in Hx. apply bind_Ok in H as (u & _ & H).
  assert (E : l' = add_platform x l) by congruence. subst l'. pose proof (element_props_supplied _ _ _ (L "name") Hp ltac:(discriminate) (or_introl eq_refl)) as S.
  rewrite find_values in Hx. destruct (values_of p (L "name")) as [|y vs]; [discriminate|]. injection Hx as ->. exists x, vs. split; [exact S|]. intros y. apply add_platform_In.
Qed.
Lemma platform_fold (step : list str -> node -> res (list str)) : (forall l m l', step l m = Ok l' -> validate_platform l m = Ok l') ->
  forall ms l l', foldM step ms l = Ok l' -> (forall y, In y l' <-> In y l \/ exists m vs, In m ms /\ supplied m (L "name") (y :: vs)).
Proof.
  intros St. induction ms as [|m ms IH]; intros l l' H y; cbn in H.
  - injection H as <-. split; [auto|]. intros [X|(m & vs & [] & _)]. exact X.
  - apply bind_Ok in H as (l1 & H1 & H). rewrite (IH _ _ H). apply St, platform_name in H1 as (x & vs & S & I). rewrite I. split.
    + intros [[->|X]|(m' & ws & M & S')]; [right; exists m, vs; cbn; auto|auto|right; exists m', ws; cbn; auto].
    + intros [X|(m' & ws & [<-|M] & S')]; [auto| |right; eauto]. pose proof (supplied_det _ _ _ _ S S') as E. left. left. congruence.
Qed.
Lemma validate_platforms_spec s d s' : validate_platforms s d = Ok s' -> exists l, s' = set_cur (set_platforms l (cur_schema s)) s /\
  forall y, In y l <-> In y (sc_platforms (cur_schema s)) \/ declares_platform d y.
Proof.
  unfold validate_platforms. intros H. apply bind_Ok in H as (l1 & H1 & H). apply bind_Ok in H as (l2 & H2 & H). injection H as <-. exists l2. split; [reflexivity|].
  assert (Nm : Forall (fun m => n_name m = L "platform") (flat_map parseGetChildren (parseGetChildrenNamed d (L "platforms")))).
  { revert H1. generalize (sc_platforms (cur_schema s)) as l0. induction (flat_map parseGetChildren _) as [|m ms IH]; intros l0 H; [constructor|]. cbn in H.
    apply bind_Ok in H as (l3 & H3 & H). apply bind_Ok in H3 as (u & G & H3). apply guard_Ok in G. apply str_eqb_eq in G. constructor; [exact G|]. eapply IH. exact H. }
  intros y. apply platform_fold with (y := y) in H2; [|auto]. apply platform_fold with (y := y) in H1; [|intros l m l' X; apply bind_Ok in X as (u & _ & X); exact X].
  rewrite H2, H1. clear H1 H2. rewrite Forall_forall in Nm. split.
  - intros [[X|(m & vs & M & S)]|(m & vs & M & S)]; [auto|right..].
    + exists m, vs. split; [exact S|]. pose proof (Nm _ M) as E. split; [exact E|]. apply platform_children in M as (_ & q & Q1 & Q2 & _ & Q3). right. eauto.
    + apply single_children in M as (_ & M1 & M2). exists m, vs. auto.
  - intros [X|(m & vs & S & E & D)]; [auto|]. assert (El : is_elem m = true) by (destruct m; try discriminate E; reflexivity). destruct D as [D|(q & Q1 & Q2 & Q3)].
    + right. exists m, vs. split; [|exact S]. apply single_children. auto.
    + left. right. exists m, vs. split; [|exact S]. apply platform_children. split; [exact El|]. exists q. repeat split; auto. destruct q; try discriminate Q2; reflexivity.
Qed.

Lemma nth_error_set_nth {B} i j (x : B) l : i <> j -> nth_error (set_nth i x l) j = nth_error l j.
Proof. revert i j. induction l as [|y l IH]; intros [|i] [|j] H; cbn; try reflexivity; try congruence. apply IH. congruence. Qed.
(** ** All files *)
Record known (files : list (str * node)) (sc : schema) : Prop := {
  kn_header : header_ok sc;
  kn_agrees : forall d, In (sc_name sc, d) files -> agrees d sc;
  kn_first : exists d, In (sc_name sc, d) files /\ forall k, In k schema_props -> supplied d k (values_of (sc_props sc) k);
  kn_plats : forall x, In x (sc_platforms sc) <-> exists d, In (sc_name sc, d) files /\ declares_platform d x }.
Lemma known_face files a b : face a = face b -> known files a -> known files b.
Proof.
  destruct a, b. unfold face, set_sc_ns. cbn. intros [= -> -> -> -> -> -> -> -> -> ->] [[H1 H2 H3 H4 H5 H6 H7 H8] B C]. cbn in *. constructor; cbn; auto. constructor; cbn; auto.
Qed.
Lemma known_faces files l l' : map face l = map face l' -> Forall (known files) l -> Forall (known files) l'.
Proof.
  revert l'. induction l as [|a l IH]; intros [|b l'] E H; try discriminate; [constructor|]. pose proof (f_equal (hd (face a)) E) as E1. pose proof (f_equal (@tl _) E) as E2. cbn [hd tl map] in E1, E2. inversion H; subst. constructor; [|auto]. eapply known_face; eassumption.
Qed.
Lemma validate_doc_known s d s' files : names_ok s -> Forall (known files) (pr_schemas s) ->
  (forall nm d, In (nm, d) files -> exists sc, In sc (pr_schemas s) /\ sc_name sc = nm) -> validate_doc s d = Ok s' ->
  exists vs nm, supplied d (L "name") vs /\ nm = (if is_nil (hd [] vs) then sc_name (cur_schema s) else hd [] vs) /\ nm <> [] /\
    sc_name (cur_schema s') = nm /\ Forall (known (files ++ [(nm, d)])) (pr_schemas s') /\
    (forall nm' d0, In (nm', d0) (files ++ [(nm, d)]) -> exists sc, In sc (pr_schemas s') /\ sc_name sc = nm').
Proof.
  intros N K KN H. unfold validate_doc in H. apply bind_Ok in H as (u & _ & H). apply bind_Ok in H as (s1 & H1 & H). apply bind_Ok in H as (s2 & H2 & H).
  pose proof (names_validate_schema _ _ _ N H1) as N1. destruct (schema_name_once _ _ _ N H1) as ((vs & Sv & Ev) & Nn).
  set (nm := sc_name (cur_schema s1)) in *.
  assert (F : map face (pr_schemas s') = map face (pr_schemas s2) /\ pr_cur s' = pr_cur s2).
  { revert H. apply (foldM_inv _ (fun s => map face (pr_schemas s) = map face (pr_schemas s2) /\ pr_cur s = pr_cur s2)); [|auto].
    intros a b a' [A1 A2] X. apply schema_child_face in X as [X1 X2]. split; congruence. }
  destruct F as [F1 F2]. clear H.
  (* after the header, before the platforms *)
  assert (L1 : (pr_cur s1 < length (pr_schemas s1))%nat).
  { destruct (no_cur _ N1) as [Z|Z]; [|exact Z]. exfalso. apply Nn. unfold nm, cur_schema. rewrite Z. destruct (pr_cur s1); reflexivity. }
  assert (K1 : Forall (fun sc => header_ok sc /\ (forall d0, In (sc_name sc, d0) (files ++ [(nm, d)]) -> agrees d0 sc) /\
      (exists d0, In (sc_name sc, d0) (files ++ [(nm, d)]) /\ forall k, In k schema_props -> supplied d0 k (values_of (sc_props sc) k)) /\
      (forall x, In x (sc_platforms sc) <-> exists d0, In (sc_name sc, d0) files /\ declares_platform d0 x)) (pr_schemas s1)).
  { apply Forall_forall. intros sc Hsc.
    assert (Same : sc_name sc = nm -> sc = cur_schema s1).
    { intros E. apply In_nth_error in Hsc as [i Hi]. pose proof (find_nth s1 i sc (no_nodup _ N1) Hi) as A. rewrite E in A.
      assert (B : find (fun x => str_eqb (sc_name (cur_schema s1)) (sc_name x)) (pr_schemas s1) = Some (cur_schema s1)) by (apply (find_nth s1 (pr_cur s1)); [apply N1|apply nth_error_nth'; exact L1]).
      fold nm in B. congruence. }
    unfold validate_schema in H1. apply bind_Ok in H1 as (sc0 & Hs & H1). apply bind_Ok in H1 as (u1 & _ & H1).
    destruct (find_idx _ _) as [i|] eqn:E; apply bind_Ok in H1 as (u2 & G & H1); apply guard_Ok in G; injection H1 as <-; cbn [pr_schemas pr_cur cur_schema] in *.
    - rewrite Forall_forall in K. destruct (K _ Hsc) as [A B C D]. split; [exact A|]. split; [|split; [destruct C as (d0 & C1 & C2); exists d0; split; [apply in_or_app; auto|exact C2]|exact D]].
      intros d0 X. apply in_app_or in X as [X|[X|[]]]; [auto|]. injection X as X1 <-. specialize (Same (eq_sym X1)). unfold cur_schema in Same. cbn [pr_schemas pr_cur] in Same. subst sc.
      intros k v ws Hk Sk. pose proof (agrees_self _ _ Hs k v ws Hk Sk) as Y. rewrite forallb_forall in G. specialize (G _ (find_prop_In _ _ _ Y)). cbn [fst snd] in G.
      destruct (find_prop _ k) as [w|]; [|discriminate]. apply str_eqb_eq in G. congruence.
    - apply in_app_or in Hsc as [Hsc|[<-|[]]].
      + assert (Ne : sc_name sc <> nm).
        { intros X. specialize (Same X). pose proof (no_nodup _ N1) as ND. cbn [pr_schemas] in ND. unfold cur_schema in Same. cbn [pr_schemas pr_cur] in Same. rewrite app_nth2, Nat.sub_diag in Same by lia. cbn in Same. subst sc.
          rewrite map_app in ND. apply NoDup_remove_2 in ND. apply ND. rewrite app_nil_r. apply in_map. exact Hsc. }
        rewrite Forall_forall in K. destruct (K _ Hsc) as [A B C D]. split; [exact A|]. split; [|split; [destruct C as (d0 & C1 & C2); exists d0; split; [apply in_or_app; auto|exact C2]|exact D]].
        intros d0 X. apply in_app_or in X as [X|[X|[]]]; [auto|]. injection X as X1 _. congruence.
      + pose proof (schema_parse_header _ _ Hs) as (A & B & C & D).
        assert (En : sc_name sc0 = nm) by (unfold nm, cur_schema; cbn [pr_schemas pr_cur]; rewrite app_nth2, Nat.sub_diag by lia; reflexivity).
        assert (Fr : forall d0, ~ In (nm, d0) files).
        { intros d0 X. destruct (KN _ _ X) as (sc & Y & Z). pose proof (no_nodup _ N1) as ND. cbn [pr_schemas] in ND. rewrite map_app in ND. apply NoDup_remove_2 in ND. apply ND.
          rewrite app_nil_r. rewrite En, <- Z. apply in_map. exact Y. }
        split; [exact A|]. split; [|split].
        * intros d0 X. apply in_app_or in X as [X|[X|[]]]; [rewrite En in X; destruct (Fr _ X)|]. injection X as _ <-. apply agrees_self. exact Hs.
        * exists d. split; [apply in_or_app; right; left; congruence|]. intros k Hk. eapply schema_prop_supplied; eassumption.
        * intros x. rewrite C, En. split; [intros []|]. intros (d0 & X & _). destruct (Fr _ X). }
  assert (KN1 : forall nm' d0, In (nm', d0) (files ++ [(nm, d)]) -> exists sc, In sc (pr_schemas s1) /\ sc_name sc = nm').
  { intros nm' d0 X. apply in_app_or in X as [X|[X|[]]].
    - destruct (KN _ _ X) as (sc & Y & Z). exists sc. split; [|exact Z]. unfold validate_schema in H1. apply bind_Ok in H1 as (sc0 & Hs & H1). apply bind_Ok in H1 as (u1 & _ & H1).
      destruct (find_idx _ _); apply bind_Ok in H1 as (u2 & _ & H1); injection H1 as <-; [exact Y|]. apply in_or_app. auto.
    - injection X as <- _. exists (cur_schema s1). split; [apply nth_In; exact L1|reflexivity]. }
  apply validate_platforms_spec in H2 as (l & -> & Hl).
  assert (N2 : map sc_name (pr_schemas (set_cur (set_platforms l (cur_schema s1)) s1)) = map sc_name (pr_schemas s1)) by (apply (set_nth_map sc_name _ _ _ no_schema); reflexivity).
  assert (N3 : map sc_name (pr_schemas s') = map sc_name (pr_schemas s1)).
  { rewrite <- N2. assert (Q : forall m, map sc_name m = map sc_name (map face m)) by (intros m; rewrite map_map; apply map_ext; reflexivity). rewrite (Q (pr_schemas s')), F1, <- Q. reflexivity. }
  exists vs, nm. split; [exact Sv|]. split; [exact Ev|]. split; [exact Nn|]. split; [|split].
  - unfold cur_schema. rewrite F2, <- (map_nth sc_name), N3, (map_nth sc_name). reflexivity.
  - eapply known_faces; [symmetry; exact F1|]. unfold set_cur. cbn [pr_schemas]. apply Forall_forall. intros sc Hsc. apply In_nth_error in Hsc as [i Hi].
    destruct (Nat.eq_dec (pr_cur s1) i) as [<-|Ni].
    + assert (sc = set_platforms l (cur_schema s1)) as ->.
      { apply nth_error_nth with (d := no_schema) in Hi. rewrite nth_set_nth in Hi by exact L1. congruence. }
      rewrite Forall_forall in K1. destruct (K1 (cur_schema s1)) as (A & B & C & D); [apply nth_In; exact L1|].
      constructor; [destruct A; constructor; assumption|exact B|exact C|]. cbn [sc_platforms sc_name set_platforms]. fold nm in D |- *. intros x. rewrite Hl, D. split.
      * intros [(d0 & X & Y)|Y]; [exists d0; split; [apply in_or_app; auto|exact Y]|exists d; split; [apply in_or_app; right; left; reflexivity|exact Y]].
      * intros (d0 & X & Y). apply in_app_or in X as [X|[X|[]]]; [left; eauto|]. injection X as <-. auto.
    + assert (Hi' : nth_error (pr_schemas s1) i = Some sc) by (rewrite <- Hi; symmetry; apply nth_error_set_nth; congruence).
      assert (Ne : sc_name sc <> nm).
      { intros E. apply Ni. pose proof (no_nodup _ N1) as ND. rewrite NoDup_nth_error in ND. apply ND; [rewrite map_length; exact L1|].
        rewrite !nth_error_map, Hi'. cbn. rewrite E. rewrite (nth_error_nth' _ no_schema L1). reflexivity. }
      rewrite Forall_forall in K1. destruct (K1 sc) as (A & B & C & D); [eapply nth_error_In; exact Hi'|]. constructor; auto. intros x. rewrite D. split; intros (d0 & X & Y); exists d0; split; auto; [apply in_or_app; auto|].
      apply in_app_or in X as [X|[X|[]]]; [exact X|]. injection X as X _. congruence.
  - intros nm' d0 X. destruct (KN1 _ _ X) as (sc & Y & Z). assert (I : In nm' (map sc_name (pr_schemas s'))) by (rewrite N3, <- Z; apply in_map; exact Y).
    apply in_map_iff in I as (sc' & E & I). eauto.
Qed.
Theorem docs_known docs : forall s s' files, names_ok s -> Forall (known files) (pr_schemas s) ->
  (forall nm d, In (nm, d) files -> exists sc, In sc (pr_schemas s) /\ sc_name sc = nm) -> foldM validate_doc docs s = Ok s' ->
  exists nds, doc_schemas (sc_name (cur_schema s)) docs nds /\ Forall (known (files ++ nds)) (pr_schemas s') /\
    (forall nm d, In (nm, d) (files ++ nds) -> exists sc, In sc (pr_schemas s') /\ sc_name sc = nm).
Proof.
  induction docs as [|d docs IH]; intros s s' files N K KN H; cbn in H.
  - injection H as <-. exists []. split; [constructor|]. rewrite app_nil_r. auto.
  - apply bind_Ok in H as (s2 & H2 & H). pose proof (names_validate_doc _ _ _ N H2) as N2.
    destruct (validate_doc_known _ _ _ _ N K KN H2) as (vs & nm & Sv & Ev & Nn & Ec & K2 & KN2).
    destruct (IH _ _ _ N2 K2 KN2 H) as (nds & D & R). exists ((nm, d) :: nds). split; [|rewrite <- app_assoc in R; exact R]. clear R. rewrite Ec in D.
    destruct vs as [|v vs]; cbn [hd] in Ev; [|destruct v as [|c v]]; cbn [is_nil] in Ev.
    + subst nm. eapply ds_unnamed; [exact Sv|reflexivity|exact Nn|exact D].
    + subst nm. eapply ds_unnamed; [exact Sv|reflexivity|exact Nn|exact D].
    + subst nm. eapply ds_named; [exact Sv|discriminate|exact D].
Qed.
Theorem validate_known multi stod docs s : validate multi stod docs = Ok s -> exists files, doc_schemas [] docs files /\ Forall (known files) (pr_schemas s) /\
  (forall nm d, In (nm, d) files -> exists sc, In sc (pr_schemas s) /\ sc_name sc = nm).
Proof.
  intros H. unfold validate in H. apply bind_Ok in H as (u & _ & H). apply bind_Ok in H as (s' & Hs & H). apply bind_Ok in H as (u' & _ & H). injection H as <-.
  apply (docs_known docs _ _ []) in Hs; [exact Hs|constructor; cbn; [constructor|constructor|auto]|constructor|intros nm d []].
Qed.
