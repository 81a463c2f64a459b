(** Facts about the lookup of global elements by the generator and its selection of messages. *)
From Coq Require Import Lia Sorting.Sorted Sorting.Permutation.
From Verif.Model Require Import Base Common Units Field IntField Message Frame Protocol GenUtil GenComms CommsFactory GenSelect.
From Verif.Spec Require Import Texts FieldSpec ProtocolSpec GenSpec NameSpec FactorySpec SelectSpec.
From Verif.Proofs Require Import BaseFacts CommonFacts RangeFacts MapFacts ProtocolFacts RefFacts FactoryFacts.

(** * lower_bound *)
Lemma div2_lt n : (Nat.div2 (S n) < S n)%nat.
Proof. apply Nat.lt_div2. lia. Qed.
Section Bound.
  Context {A : Type} (before : A -> bool) (l : list A) (k : nat).
  Hypothesis parted : forall j x, nth_error l j = Some x -> (before x = true <-> (j < k)%nat).
  Lemma lower_loop : forall fuel first len, (len <= fuel)%nat -> (first + len <= length l)%nat -> (first <= k <= first + len)%nat ->
    lower_bound_loop fuel before l first len = k.
  Proof.
    induction fuel as [|fuel IH]; intros first len F L K; cbn [lower_bound_loop]; [lia|]. destruct len as [|len]; [lia|].
    pose proof (div2_lt len) as D. set (h := Nat.div2 (S len)) in *. destruct (nth_error l (first + h)) as [x|] eqn:E.
    - pose proof (parted _ _ E) as P. destruct (before x).
      + apply IH; lia.
      + assert (~ (first + h < k)%nat) by (intro Y; apply P in Y; discriminate). apply IH; lia.
    - apply nth_error_None in E. lia.
  Qed.
  Lemma lower_bound_is : (k <= length l)%nat -> lower_bound before l = k.
  Proof. intro K. apply lower_loop; lia. Qed.
End Bound.

(** a list sorted by names: smaller names first *)
Definition by_names {A} (name : A -> str) (l : list A) : Prop := StronglySorted (fun a b => str_ltb (name a) (name b) = true) l.
Lemma nth_order {A} (R : A -> A -> Prop) l : StronglySorted R l -> forall i j x y, nth_error l i = Some x -> nth_error l j = Some y -> (i < j)%nat -> R x y.
Proof.
  induction 1 as [|a l S IH F]; intros i j x y I J L; [destruct i; discriminate|]. destruct j as [|j]; [lia|]. cbn in J. destruct i as [|i]; cbn in I.
  - injection I as <-. rewrite Forall_forall in F. apply F. eapply nth_error_In. exact J.
  - eapply IH; [exact I|exact J|lia].
Qed.
Lemma find_named_hit {A} (name : A -> str) l x : by_names name l -> In x l -> find_named name l (name x) = Some x.
Proof.
  intros S I. apply In_nth_error in I as [k K]. unfold find_named. rewrite (lower_bound_is _ _ k).
  - rewrite K, str_eqb_refl. reflexivity.
  - intros j y J. split.
    + intro B. destruct (Nat.lt_total j k) as [L|[L|L]]; [exact L|..].
      * subst j. rewrite K in J. injection J as <-. rewrite str_ltb_irrefl in B. discriminate.
      * pose proof (nth_order _ _ S _ _ _ _ K J L) as C. cbn in C. pose proof (str_ltb_trans _ _ _ C B) as X. rewrite str_ltb_irrefl in X. discriminate.
    + intro L. exact (nth_order _ _ S _ _ _ _ J K L).
  - apply Nat.lt_le_incl. apply nth_error_Some. congruence.
Qed.
Lemma find_named_In {A} (name : A -> str) l key x : find_named name l key = Some x -> In x l /\ name x = key.
Proof.
  unfold find_named. destruct (nth_error l _) as [y|] eqn:E; [|discriminate]. destruct (str_eqb (name y) key) eqn:K; [|discriminate].
  intros [= <-]. apply str_eqb_eq in K. split; [|exact K]. eapply nth_error_In. exact E.
Qed.

(** * the lists of the parser are sorted *)
Lemma subs_by_names (l : list (str * nspace)) : sorted_map str_ltb l -> (forall k s, In (k, s) l -> k = ns_name s) -> by_names ns_name (map snd l).
Proof.
  intros S N. induction S as [|[k v] l S IH F]; cbn [map snd]; constructor.
  - apply IH. intros. apply N. now right.
  - apply Forall_forall. intros x I. apply in_map_iff in I as ([k' v'] & <- & I). rewrite Forall_forall in F. specialize (F _ I). cbn [fst snd] in *.
    rewrite <- (N k v), <- (N k' v'); [exact F|now right|now left].
Qed.
Lemma NoDup_names {A} (name : A -> str) (Q : A -> Prop) l : elems_ok name Q l -> NoDup (map name (map snd l)).
Proof.
  intros [S M]. induction S as [|[k v] l S IH F]; cbn [map snd]; constructor.
  - intro I. rewrite map_map in I. apply in_map_iff in I as ([k' v'] & E & I). cbn [snd] in E. rewrite Forall_forall in F. specialize (F _ I). cbn [fst] in F.
    destruct (M k v) as (K & _); [now left|]. destruct (M k' v') as (K' & _); [now right|]. unfold key_ltb in F. rewrite K, K', E, str_ltb_irrefl in F. discriminate.
  - apply IH. intros k' v' I. apply M. now right.
Qed.
Lemma strict_sorted {A} (name : A -> str) l : StronglySorted (fun a b => str_ltb (name b) (name a) = false) l -> NoDup (map name l) -> by_names name l.
Proof.
  induction 1 as [|x l S IH F]; cbn [map]; intro N; constructor; inversion N as [|? ? N1 N2]; subst; [now apply IH|].
  rewrite Forall_forall in *. intros y I. specialize (F _ I). destruct (str_ltb (name x) (name y)) eqn:E; [reflexivity|].
  exfalso. apply N1. rewrite (str_ltb_total _ _ E F). now apply in_map.
Qed.
Lemma elems_by_names {A} (name : A -> str) (Q : A -> Prop) l : elems_ok name Q l -> by_names name (by_name name l).
Proof.
  intro H. apply strict_sorted.
  - unfold by_name. apply (sort_sorted _ (fun _ => True)).
    + intros a b _ _ L. destruct (str_ltb (name b) (name a)) eqn:E; [|reflexivity]. pose proof (str_ltb_trans _ _ _ L E) as X. rewrite str_ltb_irrefl in X. discriminate.
    + intros a b c _ _ _ P R. destruct (str_ltb (name c) (name a)) eqn:E; [|reflexivity]. exfalso.
      destruct (str_ltb (name a) (name b)) eqn:E2.
      * rewrite (str_ltb_trans _ _ _ E E2) in R. discriminate.
      * rewrite (str_ltb_total _ _ E2 P) in E. congruence.
    + apply Forall_forall. auto.
  - apply (Permutation_NoDup (l := map name (map snd l))); [|now apply NoDup_names with Q].
    apply Permutation_map. symmetry. apply sort_perm.
Qed.

(** * references *)
Lemma first_seg_cut a r : nodot a -> first_seg (a ++ "."%char :: r) = (a, Some r).
Proof.
  intro N. unfold first_seg. assert (split_at "." (a ++ "."%char :: r) = Some (a, r)) as ->; [|reflexivity]. apply split_at_spec. auto.
Qed.
Lemma first_seg_whole a : nodot a -> first_seg a = (a, None).
Proof.
  intro N. unfold first_seg. destruct (split_at "." a) as [[x y]|] eqn:E; [|reflexivity]. apply split_at_spec in E as [-> _]. destruct N. apply in_or_app. right. now left.
Qed.
Lemma first_seg_text ref a r : first_seg ref = (a, Some r) -> ref = a ++ "."%char :: r.
Proof. unfold first_seg. destruct (split_at "." ref) as [[x y]|] eqn:E; [|discriminate]. intros [= <- <-]. now apply split_at_spec in E as [-> _]. Qed.
Lemma first_seg_len ref a r : first_seg ref = (a, Some r) -> (length r < length ref)%nat.
Proof. intro H. apply first_seg_text in H as ->. rewrite app_length. cbn [length]. lia. Qed.

Section Kinds.
  Context {A : Type} (name : A -> str) (leaf : nspace -> list A).
  Definition leaf_ok : Prop := forall n, ns_ok n -> by_names name (leaf n) /\ Forall (fun x => valid (name x)) (leaf n).
  Hypothesis leafs : leaf_ok.
  (** from a namespace with this name down the path *)
  Inductive from (n : nspace) : list str -> nspace -> Prop :=
  | from_here : from n [ns_name n] n
  | from_sub k s p m : In (k, s) (ns_subs n) -> from s p m -> from n (ns_name n :: p) m.
  Lemma from_ok n p m : from n p m -> ns_ok n -> ns_ok m.
  Proof. induction 1 as [|n k s p m I F IH]; intro O; [exact O|]. apply IH. inversion O as [? _ _ _ _ _ _ R]; subst. eauto. Qed.
  Lemma from_at l p m : (forall k s, In (k, s) l -> k = ns_name s) -> (forall k s, In (k, s) l -> ns_ok s) ->
    namespace_at l p m <-> exists k n, In (k, n) l /\ from n p m.
  Proof.
    intros N R. split.
    - intro H. induction H as [l k n I|l k n p m I H IH].
      + exists k, n. split; [exact I|]. rewrite (N _ _ I). constructor.
      + pose proof (R _ _ I) as O. inversion O as [? _ _ _ _ _ N' R']; subst. destruct IH as (k' & s & I' & F); [intros; now apply N'|exact R'|].
        exists k, n. split; [exact I|]. rewrite (N _ _ I). econstructor; eassumption.
    - intros (k & n & I & F). revert l k N R I. induction F as [n|n k s p m I F IH]; intros l q N R J.
      + rewrite <- (N _ _ J). now constructor.
      + rewrite <- (N _ _ J). pose proof (R _ _ J) as O. inversion O as [? _ _ _ _ _ N' R']; subst. apply na_sub with n; [exact J|].
        apply (IH _ k); [intros; now apply N'|exact R'|exact I].
  Qed.
  Lemma from_nonempty n p m : from n p m -> p <> [].
  Proof. destruct 1; discriminate. Qed.

  Lemma ns_find_sound : forall fuel n ref p x, ns_find fuel name leaf n ref = Some (p, x) ->
    exists m, from n p m /\ In x (leaf m) /\ ref = jn (tl p ++ [name x]).
  Proof.
    induction fuel as [|fuel IH]; intros n ref p x; cbn [ns_find]; [discriminate|].
    assert (H : (match find_named name (leaf n) ref with Some y => Some ([ns_name n], y) | None => None end) = Some (p, x) ->
                exists m, from n p m /\ In x (leaf m) /\ ref = jn (tl p ++ [name x])).
    { destruct (find_named name (leaf n) ref) as [y|] eqn:E; [|discriminate]. intros [= <- <-]. apply find_named_In in E as [I <-].
      exists n. split; [constructor|]. split; [exact I|reflexivity]. }
    destruct (first_seg ref) as [a [r|]] eqn:E; [|exact H]. destruct (is_nil a); [exact H|].
    destruct (find_named ns_name (map snd (ns_subs n)) a) as [s|] eqn:F; [|discriminate].
    destruct (ns_find fuel name leaf s r) as [[q y]|] eqn:G; [|discriminate]. intros [= <- <-]. apply IH in G as (m & Fm & I & ->).
    apply find_named_In in F as [Is <-]. apply in_map_iff in Is as ([k s'] & E' & Is). cbn [snd] in E'. subst s'.
    exists m. split; [econstructor; eassumption|]. split; [exact I|]. cbn [tl]. apply first_seg_text in E as ->.
    destruct q as [|q0 q]; [now apply from_nonempty in Fm|]. cbn [tl app]. rewrite join_cons by (destruct q; discriminate).
    inversion Fm; subst; reflexivity.
  Qed.
  Lemma ns_find_complete : forall fuel n p m x, ns_ok n -> from n p m -> In x (leaf m) -> (length (jn (tl p ++ [name x])) < fuel)%nat ->
    ns_find fuel name leaf n (jn (tl p ++ [name x])) = Some (p, x).
  Proof.
    induction fuel as [|fuel IH]; intros n p m x O F I L; [lia|]. cbn [ns_find]. pose proof (from_ok _ _ _ F O) as Om. destruct (leafs m Om) as [Lm Vm].
    rewrite Forall_forall in Vm. pose proof (Vm _ I) as V. destruct F as [|k s p m J F].
    - cbn [tl app jn]. change (jn [name x]) with (name x). rewrite first_seg_whole by now apply valid_nodot. rewrite (find_named_hit name _ _ Lm I). reflexivity.
    - cbn [tl]. cbn [tl] in L. inversion O as [? _ _ _ _ S N R]; subst. assert (P : p = ns_name s :: tl p) by (destruct F; reflexivity). rewrite P in L |- *.
      cbn [app] in L |- *. rewrite join_cons in L |- * by (destruct (tl p); discriminate). destruct (N _ _ J) as [E1 Vs]. subst k.
      rewrite first_seg_cut by now apply valid_nodot. destruct (is_nil (ns_name s)) eqn:Nil; [destruct (ns_name s); discriminate|].
      rewrite (find_named_hit ns_name _ s); [|apply subs_by_names; [exact S|intros; now apply N]|change s with (snd (ns_name s, s)); now apply in_map].
      rewrite app_length in L. cbn [length] in L. rewrite (IH s p m x (R _ _ J) F I) by lia. now rewrite <- P.
  Qed.

  Lemma schema_find_iff sc ref p x : nss_ok (sc_ns sc) ->
    schema_find name leaf sc ref = Some (p, x) <-> exists m, namespace_at (sc_ns sc) p m /\ In x (leaf m) /\ within p (name x) ref.
  Proof.
    intros O. pose proof O as [S N R]. assert (N1 : forall k s, In (k, s) (sc_ns sc) -> k = ns_name s) by (intros; now apply N).
    unfold schema_find. split.
    - destruct (match first_seg ref with (a, Some r) => (a, r) | (_, None) => ([], ref) end) as [a r] eqn:E.
      destruct (find_named ns_name (map snd (sc_ns sc)) a) as [n|] eqn:F; [|discriminate]. intro H. apply ns_find_sound in H as (m & Fm & I & ->).
      apply find_named_In in F as [In0 <-]. apply in_map_iff in In0 as ([k n'] & E' & In0). cbn [snd] in E'. subst n'.
      exists m. assert (At : namespace_at (sc_ns sc) p m) by (apply from_at; eauto). split; [exact At|]. split; [exact I|].
      destruct (N _ _ In0) as [Kn V]. subst k. destruct (first_seg ref) as [b [r'|]] eqn:G.
      + apply pair_equal_spec in E as [-> ->]. apply first_seg_text in G as ->. unfold within, path_text. destruct Fm as [|k s p m J Fm].
        * cbn [tl app]. change (jn [name x]) with (name x). destruct (ns_name n) as [|c w] eqn:W.
          -- right. auto.
          -- left. reflexivity.
        * destruct V as [V|[V E]]; [|rewrite E in J; destruct J]. left. cbn [tl app].
          destruct (ns_name n) as [|c w] eqn:W; [discriminate|]. rewrite join_cons by (destruct p; discriminate). reflexivity.
      + apply pair_equal_spec in E as [E ->]. destruct Fm as [|k s p m J Fm].
        * cbn [tl app]. left. unfold path_text. rewrite <- E. reflexivity.
        * destruct V as [V|[_ V]]; [rewrite <- E in V; discriminate|rewrite V in J; destruct J].
    - intros (m & At & I & W). apply from_at in At as (k & n & J & F); [|exact N1|exact R]. destruct (N _ _ J) as [Kn V]. subst k.
      assert (Om : ns_ok m) by (eapply from_ok; [exact F|eauto]). destruct (leafs m Om) as [Lm Vm]. rewrite Forall_forall in Vm. pose proof (Vm _ I) as Vx.
      assert (Hit : find_named ns_name (map snd (sc_ns sc)) (ns_name n) = Some n).
      { apply (find_named_hit ns_name); [now apply subs_by_names|]. change n with (snd (ns_name n, n)). now apply in_map. }
      assert (Done : ns_find (Datatypes.S (length (jn (tl p ++ [name x])))) name leaf n (jn (tl p ++ [name x])) = Some (p, x)) by (eapply ns_find_complete; eauto).
      assert (P : p = ns_name n :: tl p) by (destruct F; reflexivity).
      destruct W as [->|[E ->]].
      + destruct V as [V|[V E]].
        * assert (path_text p (name x) = ns_name n ++ "."%char :: jn (tl p ++ [name x])) as ->.
          { unfold path_text. generalize dependent (tl p). intros t _ P. rewrite P. destruct (ns_name n) as [|c w] eqn:W; [discriminate|]. cbn [app].
            rewrite (join_cons (c :: w)) by (destruct t; discriminate). reflexivity. }
          rewrite first_seg_cut by now apply valid_nodot. rewrite Hit. exact Done.
        * assert (Tl : p = [[]]). { destruct F as [|k s ? ? J' F]; [now rewrite V|]. rewrite E in J'. destruct J'. }
          rewrite Tl in Done |- *. cbn [path_text]. cbn [tl app] in Done. change (jn [name x]) with (name x) in Done.
          rewrite first_seg_whole by now apply valid_nodot. rewrite V in Hit. rewrite Hit. exact Done.
      + rewrite E in P. injection P as P. change ("."%char :: name x) with ([] ++ "."%char :: name x). rewrite first_seg_cut by (intros []). rewrite P, Hit. rewrite E. rewrite E in Done. exact Done.
  Qed.
End Kinds.

(** * the whole generator *)
Lemma find_idx_name' l i sc : NoDup (map sc_name l) -> nth_error l i = Some sc -> find_idx (fun x => str_eqb (sc_name x) (sc_name sc)) l = Some i.
Proof.
  intros N H. rewrite <- (find_idx_name l i sc N H). clear. induction l as [|x l IH]; [reflexivity|]. cbn [find_idx].
  assert (str_eqb (sc_name x) (sc_name sc) = str_eqb (sc_name sc) (sc_name x)) as ->.
  { destruct (str_eqb (sc_name x) (sc_name sc)) eqn:E; [apply str_eqb_eq in E; rewrite E; symmetry; apply str_eqb_refl|].
    destruct (str_eqb (sc_name sc) (sc_name x)) eqn:E2; [apply str_eqb_eq in E2; rewrite E2, str_eqb_refl in E; discriminate|reflexivity]. }
  now rewrite IH.
Qed.
Section Whole.
  Context {A : Type} (name : A -> str) (leaf : nspace -> list A) (leafs : leaf_ok name leaf) (s : protocol) (P : proto_ok s) (N : names_ok s).
  Lemma schema_ok i sc : nth_error (pr_schemas s) i = Some sc -> nss_ok (sc_ns sc) /\ valid (sc_name sc).
  Proof.
    intro H. apply nth_error_In in H. split; [unfold proto_ok in P; rewrite Forall_forall in P; now apply P|].
    destruct N as [_ V _]. rewrite Forall_forall in V. now apply V.
  Qed.
  Lemma within_start sc p m x rest : nss_ok (sc_ns sc) -> namespace_at (sc_ns sc) p m -> In x (leaf m) -> within p (name x) rest ->
    exists c r, rest = c :: r /\ ch_eqb c c_schema = false.
  Proof.
    intros O At I W. destruct (path_cases _ _ _ O At) as [Om C]. destruct (leafs m Om) as [_ V]. rewrite Forall_forall in V. specialize (V _ I).
    destruct W as [->|[_ ->]]; [|eauto]. apply path_text_start; [|exact V]. destruct C as [[-> _]|(? & ? & _)]; auto.
  Qed.
  Lemma gen_find_iff cur ref i p x : gen_find name leaf (pr_schemas s) cur ref = Some (i, p, x) <->
    exists sc m, nth_error (pr_schemas s) i = Some sc /\ namespace_at (sc_ns sc) p m /\ In x (leaf m) /\ names_place (pr_schemas s) cur ref i p (name x).
  Proof.
    unfold gen_find. split.
    - destruct (gen_parse_ref (pr_schemas s) cur ref) as [[j|] rest] eqn:E; [|discriminate]. destruct (is_nil rest) eqn:Nil; [discriminate|].
      destruct (nth_error (pr_schemas s) j) as [sc|] eqn:J; [|discriminate]. destruct (schema_find name leaf sc rest) as [[q y]|] eqn:F; [|discriminate].
      intros [= <- <- <-]. destruct (schema_ok _ _ J) as [O V]. apply (schema_find_iff name leaf leafs) in F as (m & At & I & W); [|exact O].
      exists sc, m. split; [exact J|]. split; [exact At|]. split; [exact I|]. exists rest. split; [exact W|].
      unfold gen_parse_ref in E. destruct ref as [|c r]; [left; injection E as -> ->; auto|].
      destruct (ch_eqb c c_schema) eqn:C; cbn [negb] in E; [|left; injection E as -> ->; auto]. right.
      apply ch_eqb_eq in C. subst c. destruct (first_seg r) as [a [b|]] eqn:G.
      + apply pair_equal_spec in E as [E ->]. apply find_idx_spec in E as (sc' & J' & K). rewrite J in J'. injection J' as <-. apply str_eqb_eq in K.
        exists sc. split; [exact J|]. apply first_seg_text in G as ->. now rewrite K.
      + apply pair_equal_spec in E as [_ <-]. discriminate.
    - intros (sc & m & J & At & I & rest & W & R). destruct (schema_ok _ _ J) as [O V]. destruct (within_start _ _ _ _ _ O At I W) as (c & r & E & C).
      assert (F : schema_find name leaf sc rest = Some (p, x)) by (apply (schema_find_iff name leaf leafs); eauto).
      assert (Nil : is_nil rest = false) by (rewrite E; reflexivity).
      assert (gen_parse_ref (pr_schemas s) cur ref = (Some i, rest)) as ->; [|now rewrite Nil, J, F].
      destruct R as [[-> ->]|(sc' & J' & ->)].
      + unfold gen_parse_ref. rewrite E, C. reflexivity.
      + rewrite J in J'. injection J' as <-. unfold gen_parse_ref. change (ch_eqb "@" c_schema) with true. cbn [negb].
        rewrite first_seg_cut by now apply valid_nodot. rewrite (find_idx_name' _ _ _ (no_nodup _ N) J). reflexivity.
  Qed.
End Whole.

(** * selection *)
Lemma place_eqb_iff a b : place_eqb a b = true <-> a = b.
Proof.
  destruct a as [[i p] x], b as [[j q] y]. cbn [place_eqb]. rewrite !andb_true_iff, Nat.eqb_eq, str_eqb_eq, Nat.eqb_eq. split.
  - intros [[-> ->] [L F]]. f_equal. f_equal. revert q L F. induction p as [|a p IH]; intros [|b q] L F; try discriminate; [reflexivity|].
    cbn in F. apply andb_prop in F as [E F]. apply str_eqb_eq in E. rewrite E. f_equal. apply IH; [|exact F]. now injection L.
  - intros [= -> -> ->]. split; [auto|]. split; [reflexivity|]. induction q as [|a q IH]; [reflexivity|]. cbn. now rewrite str_eqb_refl, IH.
Qed.
Lemma numbered {A} (l : list A) : forall k i x, In (i, x) (combine (seq k (length l)) l) <-> (k <= i)%nat /\ nth_error l (i - k) = Some x.
Proof.
  induction l as [|a l IH]; intros k i x; cbn [length seq combine].
  - split; [intros []|]. intros [_ H]. destruct (i - k)%nat; discriminate.
  - cbn [In]. rewrite IH. split.
    + intros [[= <- <-]|[L H]]; [rewrite Nat.sub_diag; auto|]. split; [lia|]. replace (i - k)%nat with (S (i - S k)) by lia. exact H.
    + intros [L H]. destruct (Nat.eq_dec i k) as [->|D].
      * left. rewrite Nat.sub_diag in H. injection H as ->. reflexivity.
      * right. split; [lia|]. replace (i - k)%nat with (S (i - S k)) in H by lia. exact H.
Qed.
Lemma numbered0 {A} (l : list A) i x : In (i, x) (combine (seq 0 (length l)) l) <-> nth_error l i = Some x.
Proof. rewrite numbered, Nat.sub_0_r. intuition lia. Qed.
Lemma in_numbered {A B} (f : nat -> A -> list B) (l : list A) y :
  In y (concat (map (fun '(i, x) => f i x) (combine (seq 0 (length l)) l))) <-> exists i x, nth_error l i = Some x /\ In y (f i x).
Proof.
  rewrite in_concat. split.
  - intros (z & I & J). apply in_map_iff in I as ([i x] & <- & I). apply numbered0 in I. eauto.
  - intros (i & x & I & J). exists (f i x). split; [|exact J]. apply in_map_iff. exists (i, x). split; [reflexivity|]. now apply numbered0.
Qed.
Lemma mark_all_In {A} (name : A -> str) leaf schemas i p nm : In (i, p, nm) (mark_all name leaf schemas) <->
  exists sc k n x, nth_error schemas i = Some sc /\ In (k, n) (sc_ns sc) /\ p = [ns_name n] /\ In x (leaf n) /\ nm = name x.
Proof.
  unfold mark_all. rewrite (in_numbered (fun i sc => flat_map (fun e => map (fun x => (i, [ns_name (snd e)], name x)) (leaf (snd e))) (sc_ns sc))). split.
  - intros (j & sc & J & I). apply in_flat_map in I as ([k n] & I & M). apply in_map_iff in M as (x & [= -> <- <-] & M). cbn [snd] in *.
    exists sc, k, n, x. auto.
  - intros (sc & k & n & x & J & I & -> & M & ->). exists i, sc. split; [exact J|]. apply in_flat_map. exists (k, n). split; [exact I|].
    apply in_map_iff. exists x. auto.
Qed.
Lemma place_place i x : place_of i (place x) = (i, fst x, m_name (snd x)).
Proof.
  unfold place_of, place, parents_of. cbn [fst snd tl]. f_equal. f_equal. rewrite map_rev, rev_involutive, map_map. apply map_id.
Qed.
Lemma schema_messages_In sc x : nss_ok (sc_ns sc) -> In x (schema_messages sc) <-> exists path m, message_at sc path m /\ x = place (path, m).
Proof.
  intros O. pose proof O as [S N R]. unfold schema_messages. rewrite in_flat_map. split.
  - intros ([k n] & I & J). cbn [snd] in J. change [] with (ns_path []) in J. rewrite gen_messages_located in J. apply in_map_iff in J as ([q m] & <- & J).
    apply (located_In n (R _ _ I)) in J as (rest & -> & B). destruct (N _ _ I) as [<- _]. apply (below_at sc [k] n O) in B; [|now constructor]. eauto.
  - intros (path & m & M & ->). pose proof M as (n & At & _). assert (exists k s rest, In (k, s) (sc_ns sc) /\ path = k :: rest) as (k & s & rest & I & ->).
    { inversion At; subst; eauto. }
    exists (k, s). split; [exact I|]. cbn [snd]. change [] with (ns_path []). rewrite gen_messages_located. apply in_map. apply (located_In s (R _ _ I)).
    destruct (N _ _ I) as [<- _]. exists rest. split; [reflexivity|]. apply (below_at sc [k] s O); [now constructor|exact M].
Qed.
Lemma written_In s marks i sc path m : proto_ok s -> nth_error (pr_schemas s) i = Some sc -> message_at sc path m ->
  generated (written_messages (pr_schemas s) marks) i path m <-> In (i, path, m_name m) marks.
Proof.
  intros P J M. unfold generated. change ((EMessage, m_name m) :: rev (map (fun k => (ENamespace, k)) path), m) with (place (path, m)).
  unfold written_messages.
  rewrite (in_numbered (fun i sc => map (pair i) (filter (fun m => existsb (place_eqb (place_of i m)) marks) (schema_messages sc)))). split.
  - intros (j & sc' & J' & I). apply in_map_iff in I as (x & [= -> ->] & I). apply filter_In in I as [_ I]. apply existsb_exists in I as (y & I & E).
    apply place_eqb_iff in E as <-. rewrite place_place in I. exact I.
  - intro I. exists i, sc. split; [exact J|]. apply in_map_iff. exists (place (path, m)). split; [reflexivity|]. apply filter_In. split.
    + apply schema_messages_In; [|eauto]. unfold proto_ok in P. rewrite Forall_forall in P. apply P. eapply nth_error_In. exact J.
    + apply existsb_exists. exists (i, path, m_name m). rewrite place_place. split; [exact I|]. now apply place_eqb_iff.
Qed.
(** messages in namespaces at the top *)
Lemma top_iff sc path m : nss_ok (sc_ns sc) -> message_at sc path m ->
  (exists k n x, In (k, n) (sc_ns sc) /\ path = [ns_name n] /\ In x (ns_messages_list n) /\ m_name m = m_name x) <-> exists k, path = [k].
Proof.
  intros [S N R] (n & At & I). split; [intros (k & n' & x & _ & -> & _); eauto|]. intros [k ->].
  inversion At as [? ? ? J|? ? ? ? ? J A]; subst; [|inversion A]. exists k, n, m. destruct (N _ _ J) as [-> _]. auto.
Qed.
Lemma leaf_ok_fields : leaf_ok f_name ns_fields_list.
Proof.
  intros n O. inversion O as [? F F1 F2 F3 F4 F5 F6]; subst. split; [now apply elems_by_names with accepted|]. apply Forall_forall. intros x I. now destruct (elems_lookup _ _ _ _ F I).
Qed.
Lemma leaf_ok_messages : leaf_ok m_name ns_messages_list.
Proof.
  intros n O. inversion O as [? F1 F F2 F3 F4 F5 F6]; subst. split; [now apply elems_by_names with accepted_message|]. apply Forall_forall. intros x I. now destruct (elems_lookup _ _ _ _ F I).
Qed.
Lemma leaf_ok_ifaces : leaf_ok if_name ns_ifaces_list.
Proof.
  intros n O. inversion O as [? F1 F2 F F3 F4 F5 F6]; subst. split; [now apply elems_by_names with accepted_iface|]. apply Forall_forall. intros x I. now destruct (elems_lookup _ _ _ _ F I).
Qed.
Lemma leaf_ok_frames : leaf_ok fr_name ns_frames_list.
Proof.
  intros n O. inversion O as [? F1 F2 F3 F F4 F5 F6]; subst. split; [now apply elems_by_names with accepted_frame|]. apply Forall_forall. intros x I. now destruct (elems_lookup _ _ _ _ F I).
Qed.

(** * the interfaces *)
Lemma all_ifaces_In n : forall pre q x, In (q, x) (genGetAllInterfaces pre n) <-> exists p m, q = pre ++ p /\ from n p m /\ In x (ns_ifaces_list m).
Proof.
  induction n as [n IH] using ns_ind'. intros pre q x. destruct n as [nm dn de subs fs ms is fr]. cbn [genGetAllInterfaces ns_subs] in *.
  rewrite in_app_iff. change (by_name if_name is) with (ns_ifaces_list (mkNs nm dn de subs fs ms is fr)). set (n := mkNs nm dn de subs fs ms is fr) in *.
  assert (G : forall l, (forall k s, In (k, s) l -> In (k, s) subs) ->
    In (q, x) ((fix go (l : list (str * nspace)) : list (list str * iface) :=
      match l with [] => [] | (_, s) :: l' => genGetAllInterfaces (pre ++ [nm]) s ++ go l' end) l) <->
    exists k s p m, In (k, s) l /\ q = pre ++ nm :: p /\ from s p m /\ In x (ns_ifaces_list m)).
  { induction l as [|[k s] l IHl]; intro Sub; [split; [intros []|intros (? & ? & ? & ? & [] & _)]|].
    rewrite in_app_iff, (IH k s) by (apply Sub; now left). rewrite IHl by (intros; apply Sub; now right). split.
    - intros [(p & m & -> & F & I)|(k' & s' & p & m & J & R)].
      + exists k, s, p, m. split; [now left|]. rewrite <- app_assoc. auto.
      + exists k', s', p, m. split; [now right|exact R].
    - intros (k' & s' & p & m & [[= <- <-]|J] & -> & R).
      + left. exists p, m. rewrite <- app_assoc. auto.
      + right. exists k', s', p, m. auto. }
  rewrite G by auto. rewrite in_map_iff. split.
  - intros [(k & s & p & m & I & -> & F & X)|(y & [= <- <-] & I)].
    + exists (nm :: p), m. split; [reflexivity|]. split; [|exact X]. change nm with (ns_name n). now apply from_sub with k s.
    + exists [nm], n. split; [reflexivity|]. split; [apply (from_here n)|exact I].
  - intros (p & m & -> & F & X). inversion F as [|k s p' m' I F']; subst.
    + right. exists x. auto.
    + left. exists k, s, p', m. auto.
Qed.
Lemma schema_interfaces_In sc p x : nss_ok (sc_ns sc) -> In (p, x) (schema_interfaces sc) <-> iface_at sc p x.
Proof.
  intros [S N R]. unfold schema_interfaces, iface_at. rewrite in_flat_map. split.
  - intros ([k n] & I & J). cbn [snd] in J. apply all_ifaces_In in J as (q & m & -> & F & X). exists m. split; [|exact X].
    apply from_at; [intros ? ? K; now destruct (N _ _ K)|exact R|]. eauto.
  - intros (m & At & X). apply from_at in At as (k & n & I & F); [|intros ? ? K; now destruct (N _ _ K)|exact R].
    exists (k, n). split; [exact I|]. cbn [snd]. apply all_ifaces_In. exists p, m. auto.
Qed.
