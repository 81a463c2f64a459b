(** Names of generated classes, accessors, files and scopes. *)
From Verif.Model Require Import Base Common Xml Field Message Frame Protocol GenUtil GenComms.
From Verif.Spec Require Import Texts XmlSpec ProtocolSpec DeclSpec NameSpec.
From Verif.Proofs Require Import BaseFacts CommonFacts MapFacts ProtocolFacts RefFacts GenFacts.
Local Open Scope list_scope.
Local Open Scope Z_scope.

Lemma case_upper x y : toupper x = toupper y <-> tolower x = tolower y.
Proof.
  assert (H : forall a, (ch_eqb (toupper (tolower a)) (toupper a) && ch_eqb (tolower (toupper a)) (tolower a))%bool = true)
    by (apply all_chars_b; vm_compute; reflexivity).
  assert (A : forall a, toupper (tolower a) = toupper a /\ tolower (toupper a) = tolower a).
  { intros a. specialize (H a). apply andb_prop in H as [A B]. apply Ascii.eqb_eq in A, B. auto. }
  split; intros E.
  - rewrite <- (proj2 (A x)), <- (proj2 (A y)), E. reflexivity.
  - rewrite <- (proj1 (A x)), <- (proj1 (A y)), E. reflexivity.
Qed.
Lemma class_eq a b : genClassName a = genClassName b <-> same_first_case_ignored a b.
Proof.
  destruct a as [|x a], b as [|y b]; cbn; (split; [intros E|intros [E|(u & v & t & E1 & E2 & E)]]); try discriminate; auto; try (left; reflexivity).
  - injection E as E1 E2. subst. right. do 3 eexists. split; [reflexivity|]. split; [reflexivity|]. apply case_upper. exact E1.
  - injection E as -> ->. reflexivity.
  - injection E1 as -> ->. injection E2 as -> ->. f_equal. apply case_upper. exact E.
Qed.
Lemma access_eq a b : genAccessName a = genAccessName b <-> same_first_case_ignored a b.
Proof.
  destruct a as [|x a], b as [|y b]; cbn; (split; [intros E|intros [E|(u & v & t & E1 & E2 & E)]]); try discriminate; auto; try (left; reflexivity).
  - injection E as E1 E2. subst. right. do 3 eexists. split; [reflexivity|]. split; [reflexivity|]. exact E1.
  - injection E as -> ->. reflexivity.
  - injection E1 as -> ->. injection E2 as -> ->. f_equal. exact E.
Qed.

(** ** joined parts *)
Definition plain (w : str) : Prop := forallb name_char w = true.
Lemma valid_plain w : valid w -> plain w.
Proof.
  intros H. apply valid_identifier in H as [W _]. unfold plain. apply forallb_forall. intros c Hc. apply name_char_spec.
  unfold word in W. rewrite Forall_forall in W. apply W, Hc.
Qed.
Lemma class_plain w : valid w -> plain (genClassName w).
Proof.
  intros H. apply valid_plain in H. destruct w as [|c w]; [reflexivity|]. unfold plain in *. cbn in *. apply andb_prop in H as [A B]. rewrite B.
  assert (E : forall a, implb (name_char a) (name_char (toupper a)) = true) by (apply all_chars_b; vm_compute; reflexivity).
  specialize (E c). rewrite A in E. cbn in E. rewrite E. reflexivity.
Qed.
Lemma prefix_words c r a b u v : name_char c = false -> plain a -> plain b -> a ++ c :: r ++ u = b ++ c :: r ++ v -> a = b /\ u = v.
Proof.
  intros N. revert b. induction a as [|x a IH]; intros [|y b] A B E; unfold plain in *; cbn in *.
  - injection E as E. split; [reflexivity|]. eapply app_inv_head. exact E.
  - injection E as -> E. rewrite N in B. discriminate.
  - injection E as -> E. rewrite N in A. discriminate.
  - injection E as -> E. apply andb_prop in A as [_ A], B as [_ B]. destruct (IH b A B E) as [-> ->]. auto.
Qed.
Lemma join_inj c r l : name_char c = false -> forall m, l <> [] -> m <> [] -> Forall plain l -> Forall plain m ->
  join_parts (c :: r) l = join_parts (c :: r) m -> l = m.
Proof.
  intros N. assert (No : forall a b t, plain a -> a = b ++ c :: t -> False).
  { intros a b t P ->. unfold plain in P. rewrite forallb_app in P. apply andb_prop in P as [_ P]. cbn in P. rewrite N in P. discriminate. }
  induction l as [|x l IH]; intros m L M FL FM E; [congruence|]. destruct m as [|y m]; [congruence|].
  inversion FL as [|? ? Px FL']; inversion FM as [|? ? Py FM']; subst. cbn in E.
  destruct l as [|x' l], m as [|y' m].
  - congruence.
  - exfalso. eapply No; [exact Px|exact E].
  - exfalso. eapply No; [exact Py|symmetry; exact E].
  - apply (prefix_words c r) in E as [-> E]; auto. f_equal. apply IH; auto; discriminate.
Qed.
Lemma join_prefix sep w l : l <> [] -> join_parts sep (w :: l) = w ++ sep ++ join_parts sep l.
Proof. destruct l; [congruence|reflexivity]. Qed.

(** ** the parts of a global element *)
Definition folder (t : elem_type) : list str :=
  match t with EField => [L "field"] | EMessage => [L "message"] | EFrame => [L "frame"] | _ => [] end.
Definition ns_parts (path : list str) : list str := concat (map opt_name path).
Lemma rev_ns path : forall classes main leaf,
  scope_parts classes main leaf false (rev (map (fun k => (ENamespace, k)) path)) = main ++ ns_parts path.
Proof.
  intros classes main leaf. induction path as [|k path IH] using rev_ind; [cbn; rewrite app_nil_r; reflexivity|].
  rewrite map_app, rev_app_distr. cbn [map rev app]. cbn [scope_parts]. rewrite IH. unfold ns_parts. rewrite map_app, concat_app. cbn.
  rewrite app_nil_r, <- app_assoc. reflexivity.
Qed.
Definition global_kind (t : elem_type) : Prop := match t with EField | EMessage | EInterface | EFrame => True | _ => False end.
Lemma parent_ns path : path <> [] -> parent_is_namespace (rev (map (fun k => (ENamespace, k)) path)) = true.
Proof.
  intros H. destruct (exists_last H) as (l & k & ->). rewrite map_app, rev_app_distr. reflexivity.
Qed.
Lemma global_parts classes main path t name : global_kind t -> path <> [] -> valid name ->
  scope_parts classes main t true (parents_of path t name) = main ++ ns_parts path ++ folder t ++ [genClassName name].
Proof.
  intros G P V. unfold parents_of. cbn [scope_parts]. rewrite rev_ns. unfold elem_ns_scope. rewrite (parent_ns _ P).
  assert (C : is_nil (genClassName name) = false) by (destruct name; [discriminate V|reflexivity]).
  rewrite <- !app_assoc.
  destruct t; try contradiction; cbn; destruct classes; cbn; rewrite ?C, ?app_nil_r; reflexivity.
Qed.
Lemma ns_parts_valid path : Forall valid path -> ns_parts path = path.
Proof.
  induction 1 as [|k path V F IH]; [reflexivity|]. unfold ns_parts in *. cbn. rewrite IH. destruct k; [discriminate|reflexivity].
Qed.
Definition good_path (path : list str) : Prop := path = [[]] \/ path <> [] /\ Forall valid path.
Lemma good_parts path : good_path path -> path <> [] /\ Forall plain (ns_parts path).
Proof.
  intros [->|[N F]]; [split; [discriminate|constructor]|]. split; [exact N|]. rewrite (ns_parts_valid _ F). eapply Forall_impl; [|exact F]. apply valid_plain.
Qed.
Lemma good_inj a b : good_path a -> good_path b -> ns_parts a = ns_parts b -> a = b.
Proof.
  intros [->|[N F]] [->|[M G]] E; try reflexivity.
  - rewrite (ns_parts_valid _ G) in E. cbn in E. congruence.
  - rewrite (ns_parts_valid _ F) in E. cbn in E. congruence.
  - rewrite (ns_parts_valid _ F), (ns_parts_valid _ G) in E. exact E.
Qed.
Lemma folder_in t k : In k (folder t) -> kind_folder k.
Proof. destruct t; cbn; try tauto; intros [<-|[]]; unfold kind_folder; auto. Qed.
Lemma ns_parts_In k path : In k (ns_parts path) -> In k path.
Proof.
  unfold ns_parts. rewrite in_concat. intros (l & A & B). apply in_map_iff in A as (x & <- & A). unfold opt_name in B.
  destruct (is_nil x); [contradiction|]. destruct B as [<-|[]]. exact A.
Qed.
Lemma folder_inj t t' : global_kind t -> global_kind t' -> folder t = folder t' -> t = t'.
Proof. destruct t, t'; cbn; try contradiction; try reflexivity; discriminate. Qed.
Lemma parts_inj p1 t1 n1 p2 t2 n2 : global_kind t1 -> global_kind t2 ->
  good_path p1 -> good_path p2 -> (forall k, In k p1 \/ In k p2 -> ~ kind_folder k) ->
  ns_parts p1 ++ folder t1 ++ [n1] = ns_parts p2 ++ folder t2 ++ [n2] -> p1 = p2 /\ t1 = t2 /\ n1 = n2.
Proof.
  intros G1 G2 P1 P2 K E. rewrite !app_assoc in E. apply app_inj_tail in E as [E <-].
  enough (H : ns_parts p1 = ns_parts p2 /\ folder t1 = folder t2).
  { destruct H as [A B]. split; [apply good_inj; assumption|]. split; [apply folder_inj; assumption|reflexivity]. }
  assert (K1 : forall k, In k (ns_parts p1) \/ In k (ns_parts p2) -> ~ kind_folder k).
  { intros k [I|I]; apply K; [left|right]; apply ns_parts_In, I. }
  assert (F : forall t, global_kind t -> folder t = [] \/ exists k, folder t = [k] /\ kind_folder k).
  { intros t G. destruct t; try contradiction; cbn; auto; right; eexists; (split; [reflexivity|]); unfold kind_folder; auto. }
  destruct (F _ G1) as [E1|(k1 & E1 & Q1)], (F _ G2) as [E2|(k2 & E2 & Q2)]; rewrite E1, E2 in *.
  - rewrite !app_nil_r in E. auto.
  - exfalso. apply (K1 k2); [|exact Q2]. left. rewrite app_nil_r in E. rewrite E. apply in_or_app. right. left. reflexivity.
  - exfalso. apply (K1 k1); [|exact Q1]. right. rewrite app_nil_r in E. rewrite <- E. apply in_or_app. right. left. reflexivity.
  - apply app_inj_tail in E as [A ->]. auto.
Qed.
Lemma joined_inj c r classes main p1 t1 n1 p2 t2 n2 : name_char c = false ->
  global_kind t1 -> global_kind t2 -> good_path p1 -> good_path p2 -> valid n1 -> valid n2 ->
  (forall k, In k p1 \/ In k p2 -> ~ kind_folder k) ->
  join_parts (c :: r) (scope_parts classes (opt_name main) t1 true (parents_of p1 t1 n1)) =
  join_parts (c :: r) (scope_parts classes (opt_name main) t2 true (parents_of p2 t2 n2)) ->
  p1 = p2 /\ t1 = t2 /\ genClassName n1 = genClassName n2.
Proof.
  intros N G1 G2 P1 P2 V1 V2 K E. destruct (good_parts _ P1) as [X1 Y1], (good_parts _ P2) as [X2 Y2].
  rewrite !global_parts in E by assumption. apply (parts_inj _ _ _ _ _ _ G1 G2 P1 P2 K).
  assert (Q : forall t, Forall plain (folder t)) by (intros []; repeat constructor).
  apply (join_inj c r); try assumption.
  - intros Z. apply app_eq_nil in Z as [_ Z]. apply app_eq_nil in Z as [_ Z]. discriminate.
  - intros Z. apply app_eq_nil in Z as [_ Z]. apply app_eq_nil in Z as [_ Z]. discriminate.
  - apply Forall_app. split; [exact Y1|]. apply Forall_app. split; [apply Q|]. constructor; [apply class_plain, V1|constructor].
  - apply Forall_app. split; [exact Y2|]. apply Forall_app. split; [apply Q|]. constructor; [apply class_plain, V2|constructor].
  - unfold opt_name in E. destruct (is_nil main); [exact E|]. cbn [app] in E. rewrite !join_prefix in E.
    + apply app_inv_head in E. apply app_inv_head in E. exact E.
    + intros Z. apply app_eq_nil in Z as [_ Z]. apply app_eq_nil in Z as [_ Z]. discriminate.
    + intros Z. apply app_eq_nil in Z as [_ Z]. apply app_eq_nil in Z as [_ Z]. discriminate.
Qed.
Lemma distinct_same (l : list str) a b : distinct_names l -> In a l -> In b l -> same_first_case_ignored a b -> a = b.
Proof.
  intros D A B E. destruct (ForallOrdPairs_In D a b A B) as [X|[X|X]]; [exact X|contradiction|].
  exfalso. apply X. destruct E as [->|(x & y & t & -> & -> & E)]; [left; reflexivity|right; eauto 8].
Qed.
