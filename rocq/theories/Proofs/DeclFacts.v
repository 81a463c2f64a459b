(** Every definition ends up in its namespace (C28). *)
From Coq Require Import Sorting.Sorted Sorting.Permutation.
From Verif.Model Require Import Base Common Xml Units Field FieldCommon IntField EnumField SetField FloatField OptCond Composite Message Frame Protocol.
From Verif.Spec Require Import Texts IntSpec XmlSpec FieldSpec ProtocolSpec DeclSpec.
From Verif.Proofs Require Import BaseFacts CommonFacts RangeFacts IntInv CondFacts XmlFacts FieldInv FieldFacts MapFacts ProtocolFacts RefFacts.

Lemma kput_perm {A} k (v : A) l : map_find key_ltb k l = None -> Permutation (map_put key_ltb k v l) (l ++ [(k, v)]).
Proof.
  induction l as [|[k' w] l IH]; cbn; [reflexivity|]. destruct (key_ltb k k') eqn:E1; [|destruct (key_ltb k' k) eqn:E2]; cbn; intros H.
  - apply (Permutation_app_comm [(k, v)] ((k', w) :: l)).
  - apply perm_skip. auto.
  - discriminate.
Qed.
Lemma kput_perm_snd {A} k (v : A) l : map_find key_ltb k l = None -> Permutation (map snd (map_put key_ltb k v l)) (map snd l ++ [v]).
Proof. intros H. apply (kput_perm k v) in H. apply (Permutation_map snd) in H. rewrite map_app in H. exact H. Qed.
Lemma sput_find {A} k (v : A) l : map_find str_ltb k (map_put str_ltb k v l) = Some v.
Proof. apply map_put_find; eauto with maps. Qed.
Lemma sput_find_other {A} k k' (v : A) l : k' <> k -> sorted_map str_ltb l -> map_find str_ltb k' (map_put str_ltb k v l) = map_find str_ltb k' l.
Proof.
  intros N S. destruct (map_find str_ltb k' l) as [w|] eqn:E.
  - apply sfind_sorted; [apply sput_sorted; exact S|]. apply sfind_In in E. apply (map_put_other str_ltb (fun s => s)); eauto with maps.
  - destruct (map_find str_ltb k' (map_put str_ltb k v l)) as [w|] eqn:F; [|reflexivity]. apply sfind_In in F. apply sput_In in F as [F|[= -> ->]]; [|congruence].
    apply sfind_sorted in F; [congruence|exact S].
Qed.

Lemma in_map_iff' {X Y} (f : X -> Y) l y : In y (map f l) <-> exists x, In x l /\ f x = y.
Proof. rewrite in_map_iff. split; intros (x & A & B); eauto. Qed.
Section Decl.
Context {A : Type} (get : nspace -> list (str * A)) (one : option str) (many : str) (parsed : node -> A -> Prop).
Hypothesis get_sub : forall k v n, get (put_sub k v n) = get n.
Hypothesis get_descr : forall d n, get (set_description d n) = get n.
Hypothesis get_empty : forall a b c, get (empty_ns a b c) = [].
Hypothesis one_child : forall o, one = Some o -> mem_str o ns_children = true.
Hypothesis many_child : mem_str many ns_children = true.
Hypothesis one_ns : one <> Some (L "ns").
Hypothesis many_ns : many <> L "ns".
Hypothesis get_plain : forall mk ns c ns', str_eqb (n_name c) (L "ns") = false -> mk_good_fixed ns mk -> ns_ok ns -> ns_child mk ns c = Ok ns' ->
  exists ms, Forall2 parsed (items one many c) ms /\ Permutation (map snd (get ns')) (map snd (get ns) ++ ms).

Fixpoint elems (p : list str) (ns : nspace) : list A :=
  match p with
  | [] => map snd (get ns)
  | k :: p' => match map_find str_ltb k (ns_subs ns) with Some m => elems p' m | None => [] end
  end.
Lemma elems_start p found a b c : elems p (ns_start found a b c) = match found with Some m => elems p m | None => [] end.
Proof.
  destruct found as [m|]; cbn [ns_start].
  - destruct (is_nil _); [|reflexivity]. destruct p; cbn; [rewrite get_descr; reflexivity|]. destruct m; reflexivity.
  - destruct p; cbn; [rewrite get_empty; reflexivity|reflexivity].
Qed.
Lemma items_ns a cs : items one many (Elem (L "ns") a cs) = [].
Proof.
  unfold items. destruct (str_eqb (L "ns") many) eqn:F; [apply str_eqb_eq in F; congruence|].
  destruct one as [o|]; [|reflexivity]. destruct (str_eqb (L "ns") o) eqn:E; [apply str_eqb_eq in E; congruence|reflexivity].
Qed.
Lemma ignored p c : is_elem c && mem_str (n_name c) ns_children = false -> declares one many p c [].
Proof.
  intros H. destruct p as [|k p].
  - assert (items one many c = []) as X; [|rewrite <- X; constructor]. destruct c as [nm a cs|t|]; try reflexivity. unfold items.
    change (mem_str nm ns_children = false) in H.
    destruct (str_eqb nm many) eqn:F; [apply str_eqb_eq in F; congruence|]. destruct one as [o|]; [|reflexivity].
    destruct (str_eqb nm o) eqn:E; [|reflexivity]. apply str_eqb_eq in E. subst nm. rewrite (one_child o eq_refl) in H. discriminate.
  - apply dc_none. intros E vs _. destruct c as [nm a cs|t|]; cbn in E; try discriminate. subst nm. vm_compute in H. discriminate.
Qed.
Lemma ns_props_supplied e n a b c : ns_props e n = Ok (a, b, c) -> exists vs, supplied n (L "name") (a :: vs).
Proof.
  unfold ns_props. intros H. apply bind_Ok in H as (p & Hp & H). apply bind_Ok in H as (u & Hu & H).
  assert (E : a = get_prop p (L "name")) by congruence. rewrite E. clear H E.
  pose proof (element_props_supplied n _ p (L "name") Hp) as S. specialize (S ltac:(discriminate) (or_introl eq_refl)).
  unfold get_prop in Hu |- *. rewrite find_values in Hu |- *. destruct (values_of p (L "name")) as [|v vs]; [discriminate Hu|]. exists vs. exact S.
Qed.
Lemma supplied_other n a vs k : supplied n (L "name") (a :: vs) -> k <> a -> forall ws, ~ supplied n (L "name") (k :: ws).
Proof. intros H N ws X. pose proof (supplied_det _ _ _ _ H X). congruence. Qed.

Definition grows (p : list str) (c : node) (x y : list A) : Prop :=
  exists nodes ms, declares one many p c nodes /\ Forall2 parsed nodes ms /\ Permutation y (x ++ ms).
Definition grows_all (p : list str) (cs : list node) (x y : list A) : Prop :=
  exists ls ms, Forall2 (declares one many p) cs ls /\ Forall2 parsed (concat ls) ms /\ Permutation y (x ++ ms).
Lemma grows_nil p x : grows_all p [] x x.
Proof. exists [], []. split; [constructor|]. split; [constructor|]. rewrite app_nil_r. reflexivity. Qed.
Lemma grows_cons p c cs x y z : grows p c x y -> grows_all p cs y z -> grows_all p (c :: cs) x z.
Proof.
  intros (nodes & ms & D & F & P) (ls & ms' & D' & F' & P'). exists (nodes :: ls), (ms ++ ms'). split; [constructor; assumption|].
  split; [cbn; apply Forall2_app; assumption|]. rewrite P', P, app_assoc. reflexivity.
Qed.
Lemma grows_none p c x : declares one many p c [] -> grows p c x x.
Proof. intros D. exists [], []. split; [exact D|]. split; [constructor|]. rewrite app_nil_r. reflexivity. Qed.

Lemma ns_child_elems n : forall mk ns ns', mk_good ns mk -> ns_ok ns -> ns_child mk ns n = Ok ns' ->
  forall p, grows p n (elems p ns) (elems p ns').
Proof.
  induction n as [nm at_ cs IH|t|] using node_ind'; intros mk ns ns' M Hn H p.
  2,3: cbn in H; discriminate.
  destruct (str_eqb nm (L "ns")) eqn:E.
  - apply str_eqb_eq in E. subst nm. cbn [ns_child n_name] in H. rewrite str_eqb_refl in H.
    apply bind_Ok in H as ([[name dn] de] & Hp & H). pose proof (ns_props_name _ _ _ _ _ Hp) as V. apply ns_props_supplied in Hp as [vs Hp].
    apply bind_Ok in H as (sub & Hs & H). injection H as <-.
    assert (S0 : ns_ok (ns_start (map_find str_ltb name (ns_subs ns)) name dn de) /\ ns_name (ns_start (map_find str_ltb name (ns_subs ns)) name dn de) = name).
    { apply ns_start_ok. intros s X. eapply nss_find; [apply subs_nss; exact Hn|exact X]. }
    assert (Srt : sorted_map str_ltb (ns_subs ns)) by (inversion Hn; assumption).
    destruct p as [|k p].
    { cbn [elems]. rewrite get_sub. apply grows_none. rewrite <- (items_ns at_ cs). constructor. }
    assert (Subs : ns_subs (put_sub name sub ns) = map_put str_ltb name sub (ns_subs ns)) by (destruct ns; reflexivity).
    cbn [elems]. rewrite Subs. destruct (str_eqb k name) eqn:K.
    + apply str_eqb_eq in K. subst k. rewrite sput_find. rewrite <- (elems_start p (map_find str_ltb name (ns_subs ns)) name dn de).
      assert (G : grows_all p cs (elems p (ns_start (map_find str_ltb name (ns_subs ns)) name dn de)) (elems p sub)).
      { revert S0 Hs. generalize (ns_start (map_find str_ltb name (ns_subs ns)) name dn de) as s0. clear Hp. revert IH.
        induction cs as [|c cs IHc]; intros IH s0 [S1 S2] Hs.
        - injection Hs as <-. apply grows_nil.
        - inversion IH as [|? ? IH1 IH2]; subst. destruct (is_elem c && mem_str (n_name c) ns_children) eqn:Ec.
          + apply bind_Ok in Hs as (s1 & Hc & Hs).
            assert (Mk : mk_good s0 (fun s => mk (put_sub (ns_name s0) s ns))).
            { intros x X1 X2. destruct (put_sub_ok (ns_name s0) x ns) as [Y1 Y2]; auto. }
            pose proof (ns_child_ok _ _ _ _ Mk S1 Hc) as [C1 C2].
            eapply grows_cons; [apply (IH1 _ _ _ Mk S1 Hc)|]. apply (IHc IH2 s1); [split; congruence|exact Hs].
          + eapply grows_cons; [apply grows_none, ignored, Ec|]. apply (IHc IH2 s0); [split; congruence|exact Hs]. }
      destruct G as (ls & ms & D & F & P). exists (concat ls), ms. split; [|auto]. eapply dc_ns; eassumption.
    + apply str_eqb_neq in K. rewrite sput_find_other by assumption. apply grows_none, dc_none. intros _. eapply supplied_other; eassumption.
  - pose proof (plain_child_ok mk ns (Elem nm at_ cs) ns' E (fun x X => M x (proj1 X) (proj1 (proj2 X))) Hn H) as (_ & _ & Sb).
    destruct p as [|k p]; cbn [elems].
    + apply get_plain in H as (ms & F & P); auto; [|intros x (X1 & X2 & _); auto]. exists (items one many (Elem nm at_ cs)), ms. split; [constructor|auto].
    + rewrite Sb. apply grows_none, dc_none. intros X. cbn in X. subst nm. rewrite str_eqb_refl in E. discriminate.
Qed.

(** the schema *)
Definition nss_elems (p : list str) (l : list (str * nspace)) : list A :=
  match p with
  | [] => match map_find str_ltb [] l with Some g => map snd (get g) | None => [] end
  | k :: p' => match map_find str_ltb k l with Some n => elems p' n | None => [] end
  end.
Lemma set_nth_nth {B} i (x : B) l d : (i < length l)%nat -> nth i (set_nth i x l) d = x.
Proof. revert i. induction l as [|y l IH]; intros [|i] H; cbn in *; try lia; [reflexivity|]. apply IH. lia. Qed.
Lemma set_nth_other {B} i j (x : B) l : i <> j -> nth_error (set_nth i x l) j = nth_error l j.
Proof. revert i j. induction l as [|y l IH]; intros [|i] [|j] H; cbn; try reflexivity; try congruence. apply IH. congruence. Qed.
Lemma set_nth_same {B} i (x : B) l : (i < length l)%nat -> nth_error (set_nth i x l) i = Some x.
Proof. revert i. induction l as [|y l IH]; intros [|i] H; cbn in *; try lia; [reflexivity|]. apply IH. lia. Qed.
Lemma put_ns_cur k n s : (pr_cur s < length (pr_schemas s))%nat ->
  sc_ns (cur_schema (put_ns k n s)) = map_put str_ltb k n (sc_ns (cur_schema s)).
Proof. intros H. unfold put_ns, set_cur, cur_schema. cbn [pr_cur pr_schemas]. rewrite set_nth_nth by exact H. reflexivity. Qed.

Definition same_but_cur (s s' : protocol) : Prop :=
  pr_cur s' = pr_cur s /\ map sc_name (pr_schemas s') = map sc_name (pr_schemas s) /\
  forall j, j <> pr_cur s -> nth_error (pr_schemas s') j = nth_error (pr_schemas s) j.
Lemma same_refl s : same_but_cur s s.
Proof. split; [reflexivity|]. split; auto. Qed.
Lemma same_trans a b c : same_but_cur a b -> same_but_cur b c -> same_but_cur a c.
Proof. intros (A1 & A2 & A3) (B1 & B2 & B3). split; [congruence|]. split; [congruence|]. intros j J. rewrite B3 by congruence. auto. Qed.
Lemma set_cur_same sc s : sc_name sc = sc_name (cur_schema s) -> same_but_cur s (set_cur sc s).
Proof.
  intros E. split; [reflexivity|]. split; [apply (set_nth_map sc_name _ _ _ no_schema E)|]. intros j J. apply set_nth_other. congruence.
Qed.

Lemma schema_child_elems s n s' : proto_ok s -> (pr_cur s < length (pr_schemas s))%nat -> schema_child s n = Ok s' ->
  same_but_cur s s' /\ forall p, ~ In [] p -> grows p n (nss_elems p (sc_ns (cur_schema s))) (nss_elems p (sc_ns (cur_schema s'))).
Proof.
  intros H Lt X. pose proof (proto_nth s (pr_cur s) H) as N. fold (cur_schema s) in N. pose proof (nss_sorted _ N) as Srt.
  unfold schema_child in X. destruct (str_eqb (n_name n) (L "ns")) eqn:E.
  - apply bind_Ok in X as ([[name dn] de] & Hp & X). pose proof (ns_props_name _ _ _ _ _ Hp) as V. apply ns_props_supplied in Hp as [vs Hp].
    apply bind_Ok in X as (ns & Hc & X). injection X as <-. split; [apply set_cur_same; reflexivity|]. intros p Np. rewrite put_ns_cur by exact Lt.
    assert (S0 : ns_ok (ns_start (map_find str_ltb name (sc_ns (cur_schema s))) name dn de) /\ ns_name (ns_start (map_find str_ltb name (sc_ns (cur_schema s))) name dn de) = name).
    { apply ns_start_ok. intros y Y. eapply nss_find; eassumption. }
    destruct n as [nm at_ cs|t|]; cbn in E; try discriminate. apply str_eqb_eq in E. subst nm.
    destruct p as [|k p].
    { unfold nss_elems. rewrite sput_find_other; [|destruct name; discriminate|assumption]. apply grows_none. rewrite <- (items_ns at_ cs). constructor. }
    cbn [nss_elems]. destruct (str_eqb k name) eqn:K.
    + apply str_eqb_eq in K. subst k. rewrite sput_find. rewrite <- (elems_start p (map_find str_ltb name (sc_ns (cur_schema s))) name dn de).
      assert (G : grows_all p cs (elems p (ns_start (map_find str_ltb name (sc_ns (cur_schema s))) name dn de)) (elems p ns)).
      { revert S0 Hc. generalize (ns_start (map_find str_ltb name (sc_ns (cur_schema s))) name dn de) as s0.
        unfold ns_children_of, parseGetChildrenOf. cbn [n_children]. clear Hp. induction cs as [|c cs IHc]; intros s0 [S1 S2] Hs.
        - injection Hs as <-. apply grows_nil.
        - cbn [filter] in Hs. replace (is_elem c && (is_nil ns_children || negb (false && match find_prop (parseNodeProps c) (L "value") with Some _ => true | None => false end) && mem_str (n_name c) ns_children))
            with (is_elem c && mem_str (n_name c) ns_children) in Hs by reflexivity.
          destruct (is_elem c && mem_str (n_name c) ns_children) eqn:Ec.
          + cbn [foldM] in Hs. apply bind_Ok in Hs as (s1 & Hc & Hs).
            assert (Mk : mk_good s0 (fun x => menv_of (put_ns name x s))).
            { intros x X1 X2. apply proto_menv_ok. apply put_ns_ok; [exact H|exact X1|congruence|left; exact V]. }
            pose proof (ns_child_ok _ _ _ _ Mk S1 Hc) as [C1 C2].
            eapply grows_cons; [apply (ns_child_elems _ _ _ _ Mk S1 Hc)|]. apply (IHc s1); [split; congruence|exact Hs].
          + eapply grows_cons; [apply grows_none, ignored, Ec|]. apply (IHc s0); [split; congruence|exact Hs]. }
      destruct G as (ls & ms & D & F & P). exists (concat ls), ms. split; [|auto]. eapply dc_ns; eassumption.
    + apply str_eqb_neq in K. rewrite sput_find_other by assumption. apply grows_none, dc_none. intros _. eapply supplied_other; eassumption.
  - apply bind_Ok in X as (g & Hc & X). injection X as <-. split; [apply set_cur_same; reflexivity|]. intros p Np. rewrite put_ns_cur by exact Lt.
    set (g0 := match map_find str_ltb [] (sc_ns (cur_schema s)) with Some g => g | None => empty_ns [] [] [] end) in *.
    assert (G : ns_ok g0 /\ ns_name g0 = [] /\ ns_subs g0 = []).
    { unfold g0. destruct (map_find str_ltb [] _) as [y|] eqn:F; [|split; [apply ns_ok_empty|split; reflexivity]].
      apply sfind_In in F. destruct (nss_names _ N _ _ F) as [F1 [F2|[_ F2]]]; [discriminate|]. split; [eapply nss_each; eassumption|]. auto. }
    destruct G as (G1 & G2 & G3).
    destruct p as [|k p]; cbn [nss_elems].
    + rewrite sput_find. apply get_plain in Hc as (ms & F & P); auto.
      * exists (items one many n), ms. split; [constructor|]. split; [exact F|]. rewrite P. unfold g0. destruct (map_find str_ltb [] _); [reflexivity|].
        rewrite get_empty. reflexivity.
      * intros x (X1 & X2 & X3). apply proto_menv_ok. apply put_ns_ok; [assumption|assumption|congruence|]. right. split; [reflexivity|congruence].
    + rewrite sput_find_other; [|intros ->; apply Np; left; reflexivity|exact Srt]. apply grows_none, dc_none. intros X. rewrite X in E. discriminate.
Qed.

(** a file *)
Lemma validate_doc_elems s d s' : proto_ok s -> names_ok s -> validate_doc s d = Ok s' ->
  exists s1, validate_schema s d = Ok s1 /\ same_but_cur s1 s' /\ (pr_cur s1 < length (pr_schemas s1))%nat /\
    forall p, ~ In [] p -> grows_all p (n_children d) (nss_elems p (sc_ns (cur_schema s1))) (nss_elems p (sc_ns (cur_schema s'))).
Proof.
  intros H Hn X. unfold validate_doc in X. apply bind_Ok in X as (u & _ & X). apply bind_Ok in X as (s1 & H1 & X). apply bind_Ok in X as (s2 & H2 & X).
  exists s1. split; [exact H1|]. pose proof (names_validate_schema _ _ _ Hn H1) as N1.
  assert (L1 : (pr_cur s1 < length (pr_schemas s1))%nat).
  { unfold validate_schema in H1. apply bind_Ok in H1 as (sc & Hs & H1). apply bind_Ok in H1 as (u' & _ & H1).
    destruct (find_idx _ _) eqn:F; apply bind_Ok in H1 as (u2 & _ & H1); injection H1 as <-; cbn.
    - apply find_idx_spec in F as (y & F & _). apply nth_error_Some. congruence.
    - rewrite app_length. cbn. lia. }
  assert (P1 : proto_ok s1).
  { unfold validate_schema in H1. apply bind_Ok in H1 as (sc & Hs & H1). apply bind_Ok in H1 as (u' & _ & H1).
    destruct (find_idx _ _); apply bind_Ok in H1 as (u2 & _ & H1); injection H1 as <-; [exact H|].
    unfold proto_ok. cbn. apply Forall_app. split; [exact H|]. constructor; [|constructor].
    unfold schema_parse in Hs. inv_all. apply nss_nil. }
  assert (B2 : same_but_cur s1 s2 /\ proto_ok s2 /\ sc_ns (cur_schema s2) = sc_ns (cur_schema s1)).
  { unfold validate_platforms in H2. apply bind_Ok in H2 as (l & _ & H2). apply bind_Ok in H2 as (l' & _ & H2). injection H2 as <-.
    split; [apply set_cur_same; reflexivity|]. split.
    - unfold proto_ok, set_cur. cbn. apply set_nth_Forall; [exact P1|]. cbn. apply (proto_nth s1). exact P1.
    - unfold cur_schema at 1, set_cur. cbn [pr_cur pr_schemas]. rewrite set_nth_nth by exact L1. reflexivity. }
  destruct B2 as (B2 & P2 & E2). assert (L2 : (pr_cur s2 < length (pr_schemas s2))%nat).
  { destruct B2 as (C1 & C2 & _). apply (f_equal (@length _)) in C2. rewrite !map_length in C2. lia. }
  rewrite <- E2. clear H1 H2 E2 N1 Hn H P1.
  assert (G : same_but_cur s2 s' /\ forall p, ~ In [] p -> grows_all p (n_children d) (nss_elems p (sc_ns (cur_schema s2))) (nss_elems p (sc_ns (cur_schema s')))).
  { clear B2. unfold parseGetChildrenOf in X. revert s2 L2 P2 X. generalize (n_children d) as cs. induction cs as [|c cs IH]; intros s2 L2 P2 X.
    - injection X as <-. split; [apply same_refl|]. intros p _. apply grows_nil.
    - cbn [filter] in X. replace (is_elem c && (is_nil ns_children || negb (false && match find_prop (parseNodeProps c) (L "value") with Some _ => true | None => false end) && mem_str (n_name c) ns_children))
        with (is_elem c && mem_str (n_name c) ns_children) in X by reflexivity.
      destruct (is_elem c && mem_str (n_name c) ns_children) eqn:Ec.
      + cbn [foldM] in X. apply bind_Ok in X as (s3 & H3 & X). pose proof (schema_child_elems _ _ _ P2 L2 H3) as [B3 G3].
        assert (P3 : proto_ok s3) by (eapply schema_child_ok; eassumption).
        assert (L3 : (pr_cur s3 < length (pr_schemas s3))%nat).
        { destruct B3 as (C1 & C2 & _). apply (f_equal (@length _)) in C2. rewrite !map_length in C2. lia. }
        destruct (IH _ L3 P3 X) as [B4 G4]. split; [eapply same_trans; eassumption|]. intros p Np. eapply grows_cons; [apply G3; exact Np|apply G4; exact Np].
      + destruct (IH _ L2 P2 X) as [B4 G4]. split; [exact B4|]. intros p Np. eapply grows_cons; [apply grows_none, ignored, Ec|apply G4; exact Np]. }
  destruct G as [B3 G]. split; [eapply same_trans; eassumption|]. split; [exact L1|exact G].
Qed.

(** all files *)
Definition elems_of (s : protocol) (name : str) (p : list str) : list A :=
  match find (fun sc => str_eqb name (sc_name sc)) (pr_schemas s) with Some sc => nss_elems p (sc_ns sc) | None => [] end.
Lemma find_nth (s : protocol) i sc : NoDup (map sc_name (pr_schemas s)) -> nth_error (pr_schemas s) i = Some sc ->
  find (fun x => str_eqb (sc_name sc) (sc_name x)) (pr_schemas s) = Some sc.
Proof.
  intros N. revert i. induction (pr_schemas s) as [|x l IH]; intros i H; [destruct i; discriminate|]. cbn in *. inversion N as [|? ? N1 N2]; subst.
  destruct i; cbn in H.
  - injection H as ->. rewrite str_eqb_refl. reflexivity.
  - destruct (str_eqb (sc_name sc) (sc_name x)) eqn:E; [|eapply IH; eassumption]. apply str_eqb_eq in E. destruct N1. rewrite <- E. apply in_map. eapply nth_error_In. exact H.
Qed.
Lemma find_same (s s' : protocol) name : names_ok s -> names_ok s' -> same_but_cur s s' -> (pr_cur s < length (pr_schemas s))%nat -> name <> sc_name (cur_schema s) ->
  find (fun x => str_eqb name (sc_name x)) (pr_schemas s') = find (fun x => str_eqb name (sc_name x)) (pr_schemas s).
Proof.
  intros N N' (B1 & B2 & B3) Lt D.
  assert (Hs : forall a b, names_ok a -> names_ok b -> map sc_name (pr_schemas b) = map sc_name (pr_schemas a) -> (forall j, j <> pr_cur s -> nth_error (pr_schemas b) j = nth_error (pr_schemas a) j) ->
     sc_name (nth (pr_cur s) (pr_schemas a) no_schema) <> name -> (pr_cur s < length (pr_schemas a))%nat ->
     forall sc, find (fun x => str_eqb name (sc_name x)) (pr_schemas a) = Some sc -> find (fun x => str_eqb name (sc_name x)) (pr_schemas b) = Some sc).
  { intros a b Na Nb M J D' Lt' sc F. apply find_some in F as [F E]. apply str_eqb_eq in E. subst name. apply In_nth_error in F as [i F].
    assert (i <> pr_cur s) by (intros ->; apply D'; rewrite (nth_error_nth _ _ no_schema F); reflexivity).
    eapply find_nth; [apply Nb|]. rewrite J; [exact F|assumption]. }
  assert (Nm : sc_name (cur_schema s') = sc_name (cur_schema s)).
  { unfold cur_schema. rewrite B1. rewrite <- !(map_nth sc_name). rewrite B2. reflexivity. }
  destruct (find (fun x => str_eqb name (sc_name x)) (pr_schemas s)) as [sc|] eqn:F.
  - apply (Hs s s') with (sc := sc); auto.
  - destruct (find (fun x => str_eqb name (sc_name x)) (pr_schemas s')) as [sc|] eqn:F'; [|reflexivity].
    rewrite <- F. symmetry. rewrite <- F'. 
    apply (Hs s' s) in F'; auto; [congruence| | |].
    + intros j J. symmetry. apply B3. exact J.
    + unfold cur_schema in Nm, D. rewrite B1 in Nm. congruence.
    + apply (f_equal (@length _)) in B2. rewrite !map_length in B2. lia.
Qed.
Lemma schema_name_supplied n sc : schema_parse n = Ok sc -> exists vs, supplied n (L "name") vs /\ sc_name sc = hd [] vs.
Proof.
  unfold schema_parse. intros H. apply bind_Ok in H as (p & Hp & H). exists (values_of p (L "name")). split.
  - eapply element_props_supplied; [exact Hp|discriminate|left; reflexivity].
  - inv_all. cbn [sc_name]. change (get_prop p (L "name") = hd [] (values_of p (L "name"))). unfold get_prop. rewrite find_values. destruct (values_of p (L "name")); reflexivity.
Qed.
Lemma sc_ns_parse n sc : schema_parse n = Ok sc -> sc_ns sc = [].
Proof. unfold schema_parse. intros H. inv_all. reflexivity. Qed.

Lemma validate_schema_elems s d s1 : names_ok s -> validate_schema s d = Ok s1 ->
  (exists vs, supplied d (L "name") vs /\ sc_name (cur_schema s1) = (if is_nil (hd [] vs) then sc_name (cur_schema s) else hd [] vs)) /\
  sc_name (cur_schema s1) <> [] /\
  (forall name p, elems_of s1 name p = elems_of s name p) /\
  (forall name, In name (map sc_name (pr_schemas s1)) <-> In name (map sc_name (pr_schemas s)) \/ name = sc_name (cur_schema s1)).
Proof.
  intros N H. pose proof (names_validate_schema _ _ _ N H) as N1. unfold validate_schema in H. apply bind_Ok in H as (sc & Hs & H). apply bind_Ok in H as (u & Hu & H).
  destruct (schema_name_supplied _ _ Hs) as (vs & Sv & Ev). rewrite Ev in H, Hu.
  set (name := if is_nil (hd [] vs) then sc_name (cur_schema s) else hd [] vs) in *.
  assert (Nn : name <> []) by (intros X; rewrite X in Hu; discriminate).
  destruct (find_idx _ _) as [i|] eqn:E.
  - apply bind_Ok in H as (u2 & _ & H). injection H as <-. apply find_idx_spec in E as (x & E & Ex). apply str_eqb_eq in Ex.
    assert (C : sc_name (cur_schema (mkProtocol (pr_schemas s) i (pr_multi s) (pr_stod s))) = name).
    { unfold cur_schema. cbn. rewrite (nth_error_nth _ _ no_schema E). congruence. }
    rewrite C. split; [eauto|]. split; [exact Nn|]. split; [reflexivity|]. intros nm. cbn. split; [auto|]. intros [X| ->]; [exact X|]. rewrite Ex. apply in_map. eapply nth_error_In. exact E.
  - apply bind_Ok in H as (u2 & _ & H). injection H as <-.
    assert (Cs : cur_schema (mkProtocol (pr_schemas s ++ [sc]) (length (pr_schemas s)) (pr_multi s) (pr_stod s)) = sc).
    { unfold cur_schema. cbn. rewrite app_nth2 by lia. rewrite Nat.sub_diag. reflexivity. }
    assert (C : sc_name sc = name).
    { rewrite Ev. unfold name. destruct (hd [] vs) eqn:F; [|reflexivity]. cbn. exfalso. subst name. cbn [is_nil] in *.
      destruct (no_cur _ N) as [Z|Z]; [unfold cur_schema in Nn; rewrite Z in Nn; destruct (pr_cur s); auto|].
      rewrite find_idx_None in E. specialize (E _ (nth_In _ no_schema Z)). unfold cur_schema in E. rewrite str_eqb_refl in E. discriminate. }
    rewrite Cs, C. split; [eauto|]. split; [exact Nn|]. split.
    + intros nm p. unfold elems_of. cbn [pr_schemas].
      assert (Hf : forall l, find (fun x => str_eqb nm (sc_name x)) (l ++ [sc]) = match find (fun x => str_eqb nm (sc_name x)) l with Some y => Some y | None => if str_eqb nm (sc_name sc) then Some sc else None end).
      { induction l as [|y l IH]; cbn; [reflexivity|]. destruct (str_eqb nm (sc_name y)); [reflexivity|exact IH]. }
      rewrite Hf. destruct (find _ _); [reflexivity|]. destruct (str_eqb nm (sc_name sc)); [|reflexivity]. rewrite (sc_ns_parse _ _ Hs). destruct p; reflexivity.
    + intros nm. cbn. rewrite map_app, in_app_iff. cbn. rewrite C. intuition congruence.
Qed.

Theorem docs_elems docs : forall s s', proto_ok s -> names_ok s -> foldM validate_doc docs s = Ok s' ->
  exists nds, doc_schemas (sc_name (cur_schema s)) docs nds /\
    (forall name, In name (map sc_name (pr_schemas s')) <-> In name (map sc_name (pr_schemas s)) \/ In name (map fst nds)) /\
    forall name p, ~ In [] p -> exists nodes ms, declared_by one many nds name p nodes /\ Forall2 parsed nodes ms /\
      Permutation (elems_of s' name p) (elems_of s name p ++ ms).
Proof.
  induction docs as [|d docs IH]; intros s s' P N H.
  - injection H as <-. exists []. split; [constructor|]. split; [cbn; tauto|]. intros name p _. exists [], []. split; [exists []; split; [constructor|reflexivity]|].
    split; [constructor|]. rewrite app_nil_r. reflexivity.
  - cbn [foldM] in H. apply bind_Ok in H as (s2 & H2 & H). pose proof (validate_doc_ok _ _ _ P H2) as P2. pose proof (names_validate_doc _ _ _ N H2) as N2.
    destruct (validate_doc_elems _ _ _ P N H2) as (s1 & H1 & B & L1 & G). destruct (validate_schema_elems _ _ _ N H1) as ((vs & Sv & Ev) & Nn & E1 & I1).
    pose proof (names_validate_schema _ _ _ N H1) as N1.
    destruct (IH _ _ P2 N2 H) as (nds & D & I & G').
    assert (C : sc_name (cur_schema s2) = sc_name (cur_schema s1)).
    { destruct B as (B1 & B2 & _). unfold cur_schema. rewrite B1. rewrite <- !(map_nth sc_name). rewrite B2. reflexivity. }
    rewrite C in D. set (nm := sc_name (cur_schema s1)) in *. exists ((nm, d) :: nds). split; [|split].
    + destruct vs as [|v vs]; cbn [hd] in Ev; [|destruct v as [|c v]].
      * cbn [is_nil] in Ev. rewrite <- Ev. eapply ds_unnamed; [exact Sv|reflexivity|exact Nn|exact D].
      * cbn [is_nil] in Ev. rewrite <- Ev. eapply ds_unnamed; [exact Sv|reflexivity|exact Nn|exact D].
      * cbn [is_nil] in Ev. rewrite Ev in D |- *. eapply ds_named; [exact Sv|discriminate|exact D].
    + intros name. rewrite I. cbn. destruct B as (_ & B2 & _). rewrite B2, I1. intuition congruence.
    + intros name p Np. destruct (G' name p Np) as (nodes & ms & D1 & F1 & Q1). destruct D1 as (ls1 & D1 & ->).
      assert (Cur : elems_of s1 nm p = nss_elems p (sc_ns (cur_schema s1)) /\ elems_of s2 nm p = nss_elems p (sc_ns (cur_schema s2))).
      { assert (L2 : (pr_cur s2 < length (pr_schemas s2))%nat).
        { destruct B as (B1 & B2 & _). apply (f_equal (@length _)) in B2. rewrite !map_length in B2. lia. }
        split; unfold elems_of.
        - unfold nm. rewrite (find_nth s1 (pr_cur s1) (cur_schema s1)); [reflexivity|apply N1|]. apply nth_error_nth'. exact L1.
        - rewrite <- C. rewrite (find_nth s2 (pr_cur s2) (cur_schema s2)); [reflexivity|apply N2|]. apply nth_error_nth'. exact L2. }
      unfold declared_by. cbn [filter fst]. destruct (str_eqb nm name) eqn:En.
      * apply str_eqb_eq in En. subst name. destruct (G p Np) as (ls & ms0 & D0 & F0 & Q0). exists (concat ls ++ concat ls1), (ms0 ++ ms). split; [|split].
        -- exists (concat ls :: ls1). split; [|reflexivity]. cbn. constructor; [|exact D1]. exists ls. auto.
        -- apply Forall2_app; assumption.
        -- destruct Cur as [C1 C2]. rewrite Q1, C2, Q0, <- C1, E1, app_assoc. reflexivity.
      * exists (concat ls1), ms. split; [exists ls1; auto|]. split; [exact F1|]. rewrite Q1.
        assert (elems_of s2 name p = elems_of s1 name p) as ->.
        { unfold elems_of. rewrite (find_same s1 s2); auto. apply str_eqb_neq in En. unfold nm in En. congruence. }
        rewrite E1. reflexivity.
Qed.
Lemma at_elems l k n p : namespace_at l (k :: p) n -> sorted_map str_ltb l -> (forall k s, In (k, s) l -> ns_ok s) ->
  exists m, map_find str_ltb k l = Some m /\ elems p m = map snd (get n).
Proof.
  remember (k :: p) as q eqn:Eq. intros H. revert k p Eq. induction H as [l k' n H|l k' n path m H Hs IH]; intros k p Eq S O; injection Eq as -> <-.
  - exists n. split; [apply sfind_sorted; assumption|]. reflexivity.
  - exists n. split; [apply sfind_sorted; assumption|]. pose proof (O _ _ H) as On. inversion On as [? _ _ _ _ S' _ O']; subst.
    destruct path as [|k' p]; [inversion Hs|]. destruct (IH k' p eq_refl S' O') as (m' & M & E). cbn. rewrite M. exact E.
Qed.
Lemma not_at_elems l k p : sorted_map str_ltb l -> (forall k s, In (k, s) l -> ns_ok s) -> (forall n, ~ namespace_at l (k :: p) n) ->
  match map_find str_ltb k l with Some m => elems p m | None => [] end = [].
Proof.
  revert l k. induction p as [|k' p IH]; intros l k S O H.
  - destruct (map_find str_ltb k l) as [m|] eqn:E; [|reflexivity]. destruct (H m). constructor. apply sfind_In. exact E.
  - destruct (map_find str_ltb k l) as [m|] eqn:E; [|reflexivity]. apply sfind_In in E. pose proof (O _ _ E) as On. inversion On as [? _ _ _ _ S' _ O']; subst.
    cbn. apply IH; auto. intros n Hn. apply (H n). econstructor; eassumption.
Qed.
Lemma listed_elems nm sc p : nss_ok (sc_ns sc) -> ~ In [] p -> exists l, listed (fun n => by_name nm (get n)) sc p l /\ Permutation l (nss_elems p (sc_ns sc)).
Proof.
  intros [S _ O] Np. set (q := match p with [] => [[]] | _ => p end).
  assert (Q : exists k r, q = k :: r /\ nss_elems p (sc_ns sc) = match map_find str_ltb k (sc_ns sc) with Some m => elems r m | None => [] end).
  { unfold q. destruct p as [|k p]; [exists [], []; split; reflexivity|]. exists k, p. split; reflexivity. }
  destruct Q as (k & r & Eq & E). rewrite E.
  assert (D : (exists n, namespace_at (sc_ns sc) q n) \/ (forall n, ~ namespace_at (sc_ns sc) q n)).
  { rewrite Eq. clear - S O. generalize (sc_ns sc) k S O. induction r as [|k' r IH]; intros l k0 S0 O0.
    - destruct (map_find str_ltb k0 l) as [m|] eqn:F.
      + left. exists m. constructor. apply sfind_In. exact F.
      + right. intros n H. inversion H as [? ? ? X|? ? ? ? ? X Y]; subst; [|inversion Y]. apply sfind_sorted in X; [congruence|exact S0].
    - destruct (map_find str_ltb k0 l) as [m|] eqn:F.
      + apply sfind_In in F. pose proof (O0 _ _ F) as On. inversion On as [? _ _ _ _ S' _ O']; subst. destruct (IH (ns_subs m) k' S' O') as [[n H]|H].
        * left. exists n. econstructor; eassumption.
        * right. intros n X. inversion X as [|? ? m' ? ? X1 X2]; subst. apply sfind_sorted in X1; [|exact S0]. apply sfind_sorted in F; [|exact S0].
          assert (m' = m) by congruence. subst. eapply H. exact X2.
      + right. intros n X. inversion X as [|? ? m' ? ? X1 X2]; subst. apply sfind_sorted in X1; [congruence|exact S0]. }
  destruct D as [[n D]|D].
  - exists (by_name nm (get n)). split; [left; exists n; split; [exact D|reflexivity]|]. rewrite Eq in D. destruct (at_elems _ _ _ _ D S O) as (m & M & X). rewrite M, X.
    unfold by_name. apply sort_perm.
  - exists []. split; [right; split; [exact D|reflexivity]|]. rewrite Eq in D. rewrite (not_at_elems _ _ _ S O D). reflexivity.
Qed.
Theorem validate_elems nm multi stod docs s : validate multi stod docs = Ok s ->
  exists files, doc_schemas [] docs files /\ (forall name, In name (map fst files) <-> exists sc, In sc (pr_schemas s) /\ sc_name sc = name) /\
    forall sc path, In sc (pr_schemas s) -> ~ In [] path -> exists nodes ms l, declared_by one many files (sc_name sc) path nodes /\
      Forall2 parsed nodes ms /\ listed (fun n => by_name nm (get n)) sc path l /\ Permutation l ms.
Proof.
  intros V. pose proof (validate_ok _ _ _ _ V) as P. pose proof (validate_names _ _ _ _ V) as N. unfold validate in V. apply bind_Ok in V as (u & _ & V).
  apply bind_Ok in V as (s' & Hs & V). apply bind_Ok in V as (u' & _ & V). injection V as ->.
  destruct (docs_elems docs (new_protocol multi stod) s) as (nds & D & I & G); auto.
  - constructor.
  - constructor; cbn; [constructor|constructor|left; reflexivity].
  - exists nds. split; [exact D|]. split.
    + intros name. rewrite <- in_map_iff' . cbn in I. rewrite I. tauto.
    + intros sc path Hi Np. destruct (G (sc_name sc) path Np) as (nodes & ms & A1 & A2 & A3).
      assert (Ok1 : nss_ok (sc_ns sc)) by (unfold proto_ok in P; rewrite Forall_forall in P; apply P; exact Hi).
      destruct (listed_elems nm sc path Ok1 Np) as (l & L1 & L2). exists nodes, ms, l. split; [exact A1|]. split; [exact A2|]. split; [exact L1|].
      apply In_nth_error in Hi as [i Hi]. unfold elems_of in A3. rewrite (find_nth s i sc (no_nodup _ N) Hi) in A3. cbn [pr_schemas new_protocol find app] in A3. rewrite L2. exact A3.
Qed.
End Decl.
