(** References to global elements (C27). *)
From Coq Require Import Sorting.Sorted.
From Verif.Model Require Import Base Common Xml Units Field FieldCommon IntField EnumField SetField FloatField OptCond Composite Message Frame Protocol.
From Verif.Spec Require Import Texts IntSpec FieldSpec ProtocolSpec.
From Verif.Proofs Require Import BaseFacts CommonFacts RangeFacts IntInv XmlFacts FieldInv FieldFacts MapFacts ProtocolFacts.

Notation jn := (join (T ".")).
Lemma join_cons w ws : ws <> [] -> jn (w :: ws) = w ++ "."%char :: jn ws.
Proof. destruct ws; [congruence|reflexivity]. Qed.
Lemma join_snoc ws x : ws <> [] -> jn (ws ++ [x]) = jn ws ++ "."%char :: x.
Proof.
  induction ws as [|w ws IH]; [congruence|]. intros _. destruct ws as [|w' ws]; [reflexivity|].
  change ((w :: w' :: ws) ++ [x]) with (w :: ((w' :: ws) ++ [x])). rewrite (join_cons w ((w' :: ws) ++ [x])), (join_cons w (w' :: ws)) by discriminate.
  rewrite IH by discriminate. rewrite <- app_assoc. reflexivity.
Qed.
Lemma splits_join s : jn (splits "." s) = s /\ splits "." s <> [].
Proof.
  induction s as [|c s [IH N]]; [split; [reflexivity|discriminate]|]. cbn [splits].
  destruct (ch_eqb c ".") eqn:E.
  - apply ch_eqb_eq in E. subst. rewrite join_cons by exact N. rewrite IH. split; [reflexivity|discriminate].
  - destruct (splits "." s) as [|p ps]; [congruence|]. split; [|discriminate]. destruct ps as [|q ps]; [cbn in IH |- *; congruence|].
    rewrite join_cons in IH |- * by discriminate. cbn [app]. rewrite IH. reflexivity.
Qed.
Definition nodot (w : str) : Prop := ~ In "."%char w.
Lemma splits_nodot w : nodot w -> splits "." w = [w].
Proof.
  intros H. induction w as [|c w IH]; [reflexivity|]. cbn [splits]. destruct (ch_eqb c ".") eqn:E.
  - apply ch_eqb_eq in E. subst. destruct H. left. reflexivity.
  - rewrite IH; [reflexivity|]. intros X. apply H. right. exact X.
Qed.
Lemma splits_app w s : nodot w -> splits "." (w ++ "."%char :: s) = w :: splits "." s.
Proof.
  intros H. induction w as [|c w IH]; [reflexivity|]. cbn [app splits]. destruct (ch_eqb c ".") eqn:E.
  - apply ch_eqb_eq in E. subst. destruct H. left. reflexivity.
  - rewrite IH; [reflexivity|]. intros X. apply H. right. exact X.
Qed.
Lemma splits_of_join ws : ws <> [] -> Forall nodot ws -> splits "." (jn ws) = ws.
Proof.
  intros N F. induction F as [|w ws Hw F IH]; [congruence|]. destruct ws as [|w' ws]; [apply splits_nodot; exact Hw|].
  rewrite join_cons by discriminate. rewrite splits_app by exact Hw. rewrite IH by discriminate. reflexivity.
Qed.
Lemma split_last_spec s a b : split_last s = Some (a, b) <-> s = a ++ "."%char :: b /\ nodot b.
Proof.
  revert a b. induction s as [|c s IH]; intros a b; cbn [split_last].
  - split; [discriminate|]. intros [E _]. destruct a; discriminate.
  - destruct (split_last s) as [[x y]|] eqn:Q.
    + destruct (proj1 (IH x y) eq_refl) as [-> N]. split.
      * intros [= <- <-]. split; [reflexivity|exact N].
      * intros [E Nb]. destruct a as [|d a]; cbn in E.
        -- injection E as -> <-. destruct Nb. apply in_or_app. right. left. reflexivity.
        -- injection E as -> E. assert (Some (x, y) = Some (a, b)) as X by (apply IH; auto). congruence.
    + destruct (ch_eqb c ".") eqn:E.
      * apply ch_eqb_eq in E. subst. split.
        -- intros [= <- <-]. split; [reflexivity|]. intros X. apply in_split in X as (l1 & l2 & ->).
           clear IH. revert Q. induction l1 as [|z l1 IHl]; cbn.
           ++ destruct (split_last l2) as [[? ?]|]; discriminate.
           ++ destruct (split_last (l1 ++ "."%char :: l2)) as [[? ?]|]; [discriminate|]. intros _. apply IHl. reflexivity.
        -- intros [E Nb]. destruct a as [|d a]; cbn in E; [congruence|]. injection E as _ E. 
           assert (None = Some (a, b)) as X by (apply IH; auto). discriminate.
      * apply ch_eqb_neq in E. split; [discriminate|]. intros [X Nb]. destruct a as [|d a]; cbn in X; [congruence|]. injection X as _ X.
        assert (None = Some (a, b)) as Y by (apply IH; auto). discriminate.
Qed.
Lemma split_last_None s : nodot s -> split_last s = None.
Proof.
  intros H. destruct (split_last s) as [[a b]|] eqn:E; [|reflexivity]. apply split_last_spec in E as [-> _].
  destruct H. apply in_or_app. right. left. reflexivity.
Qed.

Lemma valid_identifier w : parseIsValidName w = true -> word w /\ (exists c r, w = c :: r /\ letter_or_underscore c).
Proof.
  intros H. apply parseIsValidName_spec in H as [H (c & Hc & L)]. split; [exact H|]. destruct w as [|d w]; [discriminate|]. injection Hc as ->. eauto.
Qed.
Lemma valid_nodot w : parseIsValidName w = true -> nodot w.
Proof.
  intros H. apply valid_identifier in H as [W _]. pose proof (word_nodot w W) as N. rewrite forallb_forall in N.
  intros X. apply N in X. discriminate.
Qed.
Lemma valid_noat w : parseIsValidName w = true -> exists c r, w = c :: r /\ ch_eqb c c_schema = false.
Proof.
  intros H. apply valid_identifier in H as [_ (c & r & -> & L)]. exists c, r. split; [reflexivity|].
  apply ch_eqb_neq. intros ->. apply memc_In in L. vm_compute in L. discriminate.
Qed.
Definition valid (w : str) : Prop := parseIsValidName w = true.
Lemma valid_path_ref ws : ws <> [] -> Forall valid ws -> parseIsValidRefName (jn ws) = true.
Proof.
  intros N F. apply parseIsValidRefName_spec. left. exists ws. split; [exact N|]. split.
  - eapply Forall_impl; [|exact F]. intros w H. apply valid_identifier in H. apply H.
  - split; [reflexivity|]. destruct F as [|w ws Hw F]; [congruence|]. apply valid_identifier in Hw as [_ (c & r & -> & L)].
    destruct ws; [exists c, r; split; [reflexivity|exact L]|]. rewrite join_cons by discriminate. eexists c, _. split; [reflexivity|exact L].
Qed.

(** ** Paths *)
Lemma sub_path l path n : (forall k s, In (k, s) l -> k = ns_name s /\ parseIsValidName k = true) -> sorted_map str_ltb l ->
  (forall k s, In (k, s) l -> ns_ok s) -> namespace_at l path n -> path <> [] /\ Forall valid path /\ ns_at path l = Some n /\ ns_ok n.
Proof.
  intros N S O H. induction H as [l k n H|l k n path m H Hs IH].
  - destruct (N _ _ H) as [_ V]. split; [discriminate|]. split; [constructor; [exact V|constructor]|]. split; [|eapply O; eassumption]. cbn.
    destruct (is_nil k) eqn:E; [destruct k; discriminate|]. apply sfind_sorted; assumption.
  - destruct (N _ _ H) as [_ V]. pose proof (O _ _ H) as On. inversion On as [? _ _ _ _ S' N' O']; subst.
    destruct (IH N' S' O') as (P & F & A & M). split; [discriminate|]. split; [constructor; assumption|]. split; [|exact M].
    cbn. destruct path as [|p path]; [congruence|]. destruct (is_nil k) eqn:E; [destruct k; discriminate|].
    rewrite (sfind_sorted _ _ _ S H). exact A.
Qed.
Lemma path_cases l path n : nss_ok l -> namespace_at l path n ->
  ns_ok n /\ (path = [[]] /\ map_find str_ltb [] l = Some n \/ path <> [] /\ Forall valid path /\ ns_at path l = Some n).
Proof.
  intros [S N O] H. destruct H as [l k n H|l k n path m H Hs].
  - split; [eapply O; eassumption|]. destruct (N _ _ H) as [_ [V|[-> _]]].
    + right. split; [discriminate|]. split; [constructor; [exact V|constructor]|]. cbn. destruct (is_nil k) eqn:E; [destruct k; discriminate|].
      apply sfind_sorted; assumption.
    + left. split; [reflexivity|]. apply sfind_sorted; assumption.
  - destruct (N _ _ H) as [_ [V|[-> E]]].
    + pose proof (O _ _ H) as On. inversion On as [? _ _ _ _ S' N' O']; subst.
      destruct (sub_path _ _ _ N' S' O' Hs) as (P & F & A & M). split; [exact M|]. right. split; [discriminate|]. split; [constructor; assumption|].
      cbn. destruct path as [|p path]; [congruence|]. destruct (is_nil k) eqn:E; [destruct k; discriminate|].
      rewrite (sfind_sorted _ _ _ S H). exact A.
    + rewrite E in Hs. inversion Hs; subst; contradiction.
Qed.
Lemma find_from_path sc path n name : nss_ok (sc_ns sc) -> namespace_at (sc_ns sc) path n -> valid name ->
  ns_from_path sc (path_text path name) true = Some (n, name).
Proof.
  intros H P V. destruct (path_cases _ _ _ H P) as [_ [[-> F]|(N & F & A)]]; unfold ns_from_path, path_text.
  - rewrite (name_is_ref _ V). cbn [negb andb]. rewrite split_last_None by (apply valid_nodot; exact V). rewrite F. reflexivity.
  - assert (match path with [[]] => name | _ => jn (path ++ [name]) end = jn (path ++ [name])) as ->.
    { destruct path as [|[|c w] [|q r]]; try reflexivity. inversion F; subst; discriminate. }
    rewrite valid_path_ref; [|destruct path; discriminate|apply Forall_app; split; [exact F|constructor; [exact V|constructor]]]. cbn [negb andb].
    rewrite join_snoc by exact N. assert (split_last (jn path ++ "."%char :: name) = Some (jn path, name)) as ->.
    { apply split_last_spec. split; [reflexivity|]. apply valid_nodot. exact V. }
    rewrite splits_of_join; [rewrite A; reflexivity|exact N|]. eapply Forall_impl; [|exact F]. apply valid_nodot.
Qed.

(** ** External references *)
Lemma fold_join subs first : fold_left (fun acc x => acc ++ "."%char :: x) subs first = jn (first :: subs).
Proof.
  revert first. induction subs as [|s subs IH]; intros first; [reflexivity|]. cbn [fold_left]. rewrite IH.
  rewrite (join_cons first) by discriminate. destruct subs as [|t subs]; [reflexivity|]. rewrite !join_cons by discriminate. rewrite <- app_assoc. reflexivity.
Qed.
Lemma join_app_head a b ws : jn ((a ++ "."%char :: b) :: ws) = a ++ "."%char :: jn (b :: ws).
Proof. destruct ws; [reflexivity|]. rewrite !join_cons by discriminate. rewrite <- app_assoc. reflexivity. Qed.
Lemma ext_ref_text path name : path = [[]] \/ path <> [] /\ Forall valid path -> ext_ref None path name = path_text path name.
Proof.
  intros [->|[N F]]; [reflexivity|]. unfold ext_ref, path_text. destruct path as [|p path]; [congruence|]. inversion F as [|? ? Vp F']; subst.
  unfold ns_ext_ref. rewrite fold_join. destruct p as [|c p]; [discriminate|].
  assert (is_nil (jn ((c :: p) :: path)) = false) as -> by (destruct path; [reflexivity|rewrite join_cons by discriminate; reflexivity]).
  rewrite join_snoc by discriminate. destruct path; reflexivity.
Qed.
Lemma ext_ref_schema sch path name : path = [[]] \/ path <> [] /\ Forall valid path ->
  ext_ref (Some sch) path name = "@"%char :: sch ++ "."%char :: path_text path name.
Proof.
  intros [->|[N F]]; [unfold ext_ref, ns_ext_ref; cbn [fold_left is_nil path_text]; rewrite app_nil_r; reflexivity|].
  unfold ext_ref, path_text. destruct path as [|p path]; [congruence|]. inversion F as [|? ? Vp F']; subst.
  unfold ns_ext_ref. rewrite fold_join. destruct p as [|c p]; [discriminate|]. cbn [is_nil]. rewrite join_app_head.
  cbn [is_nil app].
  assert ((match path with [] => jn (((c :: p) :: path) ++ [name]) | _ => jn (((c :: p) :: path) ++ [name]) end) = jn (((c :: p) :: path) ++ [name])) as E by (destruct path; reflexivity).
  change ((c :: p) :: path ++ [name]) with (((c :: p) :: path) ++ [name]).
  rewrite join_snoc by discriminate. rewrite <- app_assoc. reflexivity.
Qed.

(** ** Names of the schemas *)
Record names_ok (s : protocol) : Prop := {
  no_nodup : NoDup (map sc_name (pr_schemas s));
  no_valid : Forall (fun sc => valid (sc_name sc)) (pr_schemas s);
  no_cur : pr_schemas s = [] \/ (pr_cur s < length (pr_schemas s))%nat }.
Lemma set_nth_map {A B} (f : A -> B) i x l d : f x = f (nth i l d) -> map f (set_nth i x l) = map f l.
Proof.
  revert i. induction l as [|y l IH]; intros i H; [destruct i; reflexivity|]. destruct i; cbn in *; [congruence|]. f_equal. apply IH. exact H.
Qed.
Lemma set_nth_length {A} i (x : A) l : length (set_nth i x l) = length l.
Proof. revert i. induction l as [|y l IH]; intros i; [destruct i; reflexivity|]. destruct i; cbn; [reflexivity|]. rewrite IH. reflexivity. Qed.
Lemma names_set_cur sc s : sc_name sc = sc_name (cur_schema s) -> names_ok s -> names_ok (set_cur sc s).
Proof.
  intros E [N V C]. pose proof (set_nth_map sc_name (pr_cur s) sc (pr_schemas s) no_schema E) as M.
  constructor; unfold set_cur; cbn [pr_schemas pr_cur].
  - rewrite M. exact N.
  - apply Forall_map. rewrite M. apply Forall_map. exact V.
  - destruct C as [C|C]; [left; rewrite C; destruct (pr_cur s); reflexivity|]. right. rewrite set_nth_length. exact C.
Qed.
Lemma find_idx_spec {A} (h : A -> bool) l i : find_idx h l = Some i -> exists x, nth_error l i = Some x /\ h x = true.
Proof.
  revert i. induction l as [|x l IH]; intros i; cbn; [discriminate|]. destruct (h x) eqn:E; [intros [= <-]; exists x; auto|].
  destruct (find_idx h l); [|discriminate]. intros [= <-]. apply IH. reflexivity.
Qed.
Lemma find_idx_None {A} (h : A -> bool) l : find_idx h l = None <-> forall x, In x l -> h x = false.
Proof.
  induction l as [|x l IH]; cbn; [split; [intros _ x []|reflexivity]|]. destruct (h x) eqn:E.
  - split; [discriminate|]. intros H. rewrite (H x) in E by (left; reflexivity). discriminate.
  - destruct (find_idx h l) eqn:F; cbn.
    + split; [discriminate|]. intros H. assert (Some n = None) as X by (apply IH; intros y Y; apply H; right; exact Y). discriminate.
    + split; [|reflexivity]. intros _ y [<-|Y]; [exact E|]. apply IH; [reflexivity|exact Y].
Qed.
Lemma names_schema_child s n s' : names_ok s -> schema_child s n = Ok s' -> names_ok s'.
Proof.
  intros H X. unfold schema_child in X. destruct (str_eqb (n_name n) (L "ns")).
  - apply bind_Ok in X as ([[name dn] de] & Hp & X). apply bind_Ok in X as (ns & Hc & X). injection X as <-. apply names_set_cur; [reflexivity|exact H].
  - apply bind_Ok in X as (g & Hc & X). injection X as <-. apply names_set_cur; [reflexivity|exact H].
Qed.
Lemma schema_parse_name n sc : schema_parse n = Ok sc -> sc_name sc = [] \/ valid (sc_name sc).
Proof.
  unfold schema_parse. intros H. inv_all. cbn [sc_name].
  match goal with X : is_nil _ || _ = true |- _ => apply orb_true_iff in X as [X|X]; [left|right; exact X] end.
  change (get_prop x (L "name") = []). destruct (get_prop x (L "name")); [reflexivity|discriminate].
Qed.
Lemma names_validate_schema s n s' : names_ok s -> validate_schema s n = Ok s' -> names_ok s'.
Proof.
  intros H X. unfold validate_schema in X. apply bind_Ok in X as (sc & Hs & X). apply bind_Ok in X as (u & Hu & X).
  set (name := if is_nil (sc_name sc) then sc_name (cur_schema s) else sc_name sc) in *.
  destruct H as [N V C]. destruct (find_idx _ _) as [i|] eqn:E.
  - apply bind_Ok in X as (u2 & _ & X). injection X as <-. apply find_idx_spec in E as (x & E & _).
    constructor; cbn; auto. right. apply nth_error_Some. congruence.
  - apply bind_Ok in X as (u2 & _ & X). injection X as <-.
    assert (Nm : sc_name sc = name).
    { unfold name. destruct (sc_name sc) eqn:F; [|reflexivity]. cbn. exfalso. subst name. try rewrite F in Hu; try rewrite F in E. cbn [is_nil] in Hu, E.
      unfold cur_schema in Hu, E. destruct C as [C|C]; [rewrite C in Hu; destruct (pr_cur s); discriminate|].
      rewrite find_idx_None in E. specialize (E _ (nth_In _ no_schema C)). rewrite str_eqb_refl in E. discriminate. }
    assert (Vn : valid (sc_name sc)).
    { apply schema_parse_name in Hs as [Hs|Hs]; [|exact Hs]. exfalso. rewrite Nm in Hs. rewrite Hs in Hu. discriminate. }
    constructor; cbn.
    + rewrite map_app. cbn. apply NoDup_rev in N. rewrite <- (rev_involutive (map sc_name (pr_schemas s) ++ [sc_name sc])). apply NoDup_rev. rewrite rev_app_distr. cbn.
      constructor; [|exact N]. intros X. apply in_rev in X. apply in_map_iff in X as (y & Y & I). rewrite find_idx_None in E. specialize (E _ I).
      rewrite Y, <- Nm, str_eqb_refl in E. discriminate.
    + apply Forall_app. split; [exact V|]. constructor; [exact Vn|constructor].
    + right. rewrite app_length. cbn. lia.
Qed.
Lemma names_validate_doc s n s' : names_ok s -> validate_doc s n = Ok s' -> names_ok s'.
Proof.
  intros H X. unfold validate_doc in X. apply bind_Ok in X as (u & _ & X). apply bind_Ok in X as (s1 & H1 & X). apply bind_Ok in X as (s2 & H2 & X).
  revert X. apply (foldM_inv _ names_ok); [intros a b a' Ha E; eapply names_schema_child; eassumption|].
  apply names_validate_schema in H1; [|exact H].
  unfold validate_platforms in H2. apply bind_Ok in H2 as (l & _ & H2). apply bind_Ok in H2 as (l' & _ & H2). injection H2 as <-.
  apply names_set_cur; [reflexivity|exact H1].
Qed.
Theorem validate_names multi stod docs s : validate multi stod docs = Ok s -> names_ok s.
Proof.
  intros H. unfold validate in H. apply bind_Ok in H as (u & _ & H). apply bind_Ok in H as (s' & Hs & H). apply bind_Ok in H as (u' & _ & H). injection H as <-.
  revert Hs. apply (foldM_inv _ names_ok); [intros; eapply names_validate_doc; eassumption|]. constructor; cbn; [constructor|constructor|left; reflexivity].
Qed.

(** ** Lookup *)
Lemma find_idx_name l i sc : NoDup (map sc_name l) -> nth_error l i = Some sc -> find_idx (fun x => str_eqb (sc_name sc) (sc_name x)) l = Some i.
Proof.
  revert i. induction l as [|x l IH]; intros i N H; [destruct i; discriminate|]. cbn in N. inversion N as [|? ? N1 N2]; subst. destruct i; cbn in H |- *.
  - injection H as ->. rewrite str_eqb_refl. reflexivity.
  - destruct (str_eqb (sc_name sc) (sc_name x)) eqn:E.
    + apply str_eqb_eq in E. destruct N1. rewrite <- E. apply in_map. eapply nth_error_In. exact H.
    + rewrite (IH _ N2 H). reflexivity.
Qed.
Lemma path_text_start path name : path = [[]] \/ path <> [] /\ Forall valid path -> valid name ->
  exists c r, path_text path name = c :: r /\ ch_eqb c c_schema = false.
Proof.
  intros [->|[N F]] V; [apply valid_noat; exact V|]. destruct path as [|p path]; [congruence|]. inversion F as [|? ? Vp F']; subst.
  destruct (valid_noat _ Vp) as (c & r & -> & E). unfold path_text.
  assert (exists r', jn (((c :: r) :: path) ++ [name]) = c :: r') as [r' X].
  { cbn [app]. rewrite join_cons by (destruct path; discriminate). eexists. reflexivity. }
  exists c, r'. split; [|exact E]. rewrite <- X. destruct path; reflexivity.
Qed.
Lemma find_complete {A} (find : nspace -> str -> option A) s i j sc path n name v : proto_ok s -> names_ok s ->
  nth_error (pr_schemas s) i = Some sc -> namespace_at (sc_ns sc) path n -> valid name -> find n name = Some v -> (i <= j)%nat ->
  find_global find (at_schema j s) (ext_ref (Some (sc_name sc)) path name) true = Some v /\
  find_global find (at_schema i s) (ext_ref None path name) true = Some v.
Proof.
  intros P N Hi Hn V F L.
  assert (Nth : nth i (pr_schemas s) no_schema = sc) by (apply nth_error_nth; exact Hi).
  assert (Ok1 : nss_ok (sc_ns sc)) by (rewrite <- Nth; apply proto_nth; exact P).
  assert (C : path = [[]] \/ path <> [] /\ Forall valid path).
  { destruct (path_cases _ _ _ Ok1 Hn) as [_ [[-> _]|(? & ? & _)]]; auto. }
  destruct (path_text_start path name C V) as (c & r & E & Ec).
  assert (Fp := find_from_path _ _ _ _ Ok1 Hn V).
  split.
  - rewrite ext_ref_schema by exact C. unfold find_global, external_ref. cbn [at_schema pr_schemas pr_cur].
    change (ch_eqb "@" c_schema) with true. cbn [negb].
    assert (first_seg (sc_name sc ++ "."%char :: path_text path name) = (sc_name sc, Some (path_text path name))) as ->.
    { unfold first_seg. assert (split_at "." (sc_name sc ++ "."%char :: path_text path name) = Some (sc_name sc, path_text path name)) as ->; [|reflexivity].
      apply split_at_spec. split; [reflexivity|]. apply valid_nodot. destruct N as [_ Vs _]. rewrite Forall_forall in Vs. apply Vs. eapply nth_error_In. exact Hi. }
    rewrite (find_idx_name _ _ _ (no_nodup _ N) Hi). rewrite E at 1. cbn [is_nil].
    destruct (Nat.leb_spec i j); [|lia]. rewrite Nth, Fp. exact F.
  - rewrite ext_ref_text by exact C. unfold find_global, external_ref. cbn [at_schema pr_schemas pr_cur].
    rewrite E. rewrite Ec. cbn [negb]. rewrite Nat.leb_refl, Nth, <- E, Fp. exact F.
Qed.
Lemma by_name_In {A} (name : A -> str) (l : list (str * A)) v : In v (by_name name l) <-> exists k, In (k, v) l.
Proof.
  unfold by_name. rewrite sort_In, in_map_iff. split; [intros ([k w] & <- & H); eauto|]. intros [k H]. exists (k, v). auto.
Qed.
Lemma elems_lookup {A} name (Q : A -> Prop) l v : elems_ok name Q l -> In v (by_name name l) -> valid (name v) /\ map_find key_ltb (name v) l = Some v /\ Q v.
Proof.
  intros [S H] X. apply by_name_In in X as [k X]. destruct (H _ _ X) as (-> & V & q). split; [exact V|]. split; [|exact q]. apply kfind_sorted; assumption.
Qed.

(** soundness, of any state *)
Lemma ns_at_path path l n : ns_at path l = Some n -> namespace_at l path n /\ path <> [] /\ path <> [[]].
Proof.
  revert l. induction path as [|x path IH]; intros l; [discriminate|]. cbn [ns_at]. destruct path as [|y path].
  - destruct (is_nil x) eqn:E; [discriminate|]. intros H. split; [constructor; apply sfind_In; exact H|]. split; [discriminate|]. intros [= ->]. discriminate.
  - destruct (is_nil x) eqn:E; [discriminate|]. destruct (map_find str_ltb x l) as [m|] eqn:F; [|discriminate]. intros H. apply IH in H as (H & _).
    split; [|split; discriminate]. econstructor; [apply sfind_In; exact F|exact H].
Qed.
Lemma from_path_sound sc ref c n name : ns_from_path sc ref c = Some (n, name) -> exists path, namespace_at (sc_ns sc) path n /\ ref = path_text path name.
Proof.
  unfold ns_from_path. destruct (c && _); [discriminate|]. destruct (split_last ref) as [[a b]|] eqn:E.
  - destruct (ns_at _ _) as [m|] eqn:F; [|discriminate]. intros [= -> ->]. apply ns_at_path in F as (F & N & N1). apply split_last_spec in E as [-> _].
    exists (splits "." a). split; [exact F|]. destruct (splits_join a) as [J _].
    assert (path_text (splits "." a) name = jn (splits "." a ++ [name])) as -> by (unfold path_text; destruct (splits "." a) as [|[|? ?] [|? ?]]; congruence).
    rewrite join_snoc by exact N. rewrite J. reflexivity.
  - destruct (map_find _ _ _) as [m|] eqn:F; [|discriminate]. intros [= -> ->]. exists [[]]. split; [constructor; apply sfind_In; exact F|reflexivity].
Qed.
Lemma find_sound {A} (find : nspace -> str -> option A) s ref c v : find_global find s ref c = Some v ->
  exists i sc path name n, (i <= pr_cur s)%nat /\ nth_error (pr_schemas s) i = Some sc /\
    (i = pr_cur s /\ ref = path_text path name \/ ref = "@"%char :: sc_name sc ++ "."%char :: path_text path name) /\
    namespace_at (sc_ns sc) path n /\ find n name = Some v.
Proof.
  unfold find_global. destruct (external_ref s ref) as [[i rest]|] eqn:E; [|discriminate]. destruct (Nat.leb_spec i (pr_cur s)); [|discriminate].
  destruct (ns_from_path _ _ _) as [[n name]|] eqn:F; [|discriminate]. intros H0. apply from_path_sound in F as (path & F & ->).
  destruct (nth_error (pr_schemas s) i) as [sc|] eqn:Hi.
  - exists i, sc, path, name, n. assert (Nth : nth i (pr_schemas s) no_schema = sc) by (apply nth_error_nth; exact Hi). rewrite Nth in F.
    split; [assumption|]. split; [exact Hi|]. split; [|auto]. unfold external_ref in E. destruct ref as [|ch r]; [discriminate|].
    destruct (negb (ch_eqb ch c_schema)) eqn:Ch.
    + injection E as <- E. left. auto.
    + right. apply negb_false_iff, ch_eqb_eq in Ch. subst ch. unfold first_seg in E. destruct (split_at "." r) as [[a b]|] eqn:Sp; [|discriminate].
      destruct (find_idx _ _) as [k|] eqn:K; [|discriminate]. destruct (is_nil b); [discriminate|]. injection E as <- <-.
      apply find_idx_spec in K as (x & K & Ex). apply str_eqb_eq in Ex. apply split_at_spec in Sp as [-> _]. rewrite K in Hi. injection Hi as ->. rewrite Ex. reflexivity.
  - apply nth_error_None in Hi. rewrite nth_overflow in F by exact Hi. inversion F; subst; contradiction.
Qed.
Lemma key_same a b : key_norm a = key_norm b -> same_first_case_ignored a b.
Proof.
  destruct a as [|x a], b as [|y b]; cbn; try discriminate; [left; reflexivity|]. intros [= H1 H2]. right. subst. eauto 6.
Qed.
