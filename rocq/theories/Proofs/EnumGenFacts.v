(** The enumerators of generated enum classes. *)
From Coq Require Import Lia Sorted Permutation ZifyBool ZifyNat.
From Verif.Model Require Import Base Common Xml Units Field FieldCommon IntField EnumField GenUtil GenComms CommsInt CommsEnum.
From Verif.Spec Require Import Texts Ints Versions IntSpec EnumSpec GenSpec NameSpec CppSpec CondCode BodySpec EnumCode.
From Verif.Proofs Require Import BaseFacts CommonFacts IntFacts RangeFacts IntInv EnumInv RefFacts GenFacts NameFacts CommsIntFacts CommsOptFacts TemplateFacts WrapFacts CondTextFacts CondMeanFacts EnumTextFacts.
From Verif.Props Require Import PTemplate PCondCode.
Local Open Scope string_scope. Local Open Scope Z_scope. Local Open Scope list_scope.

(** ** Accepted fields *)
Record enum_gen (s : enum_state) : Prop := {
  eg_inv : enum_inv s;
  eg_hex : en_hexAssign s = true -> is_unsigned (en_type s) = true;
  eg_vers : Forall (fun x => 0 <= v_since (snd x) < v_depr (snd x) /\ v_depr (snd x) <= never) (en_values s) }.
Lemma hex_ok e c p n old s : (forall o, old = Some o -> en_hexAssign o = true -> is_unsigned (en_type o) = true) ->
  enum_parse e c p n old = Ok s -> en_hexAssign s = true -> is_unsigned (en_type s) = true.
Proof.
  intros Ho H. unfold enum_parse in H.
  apply bind_Ok in H as (t & Ht & H). apply bind_Ok in H as (en & Hen & H).
  apply bind_Ok in H as (len & Hlen & H). apply bind_Ok in H as (bits & Hbits & H).
  apply bind_Ok in H as (nonU & _ & H). apply bind_Ok in H as (vcv & _ & H).
  apply bind_Ok in H as (mn & Hmn & H). apply bind_Ok in H as (mx & Hmx & H).
  apply bind_Ok in H as (vs & Hvs & H). apply bind_Ok in H as (d & Hd & H).
  apply bind_Ok in H as (hex & Hh & H). apply bind_Ok in H as (al & _ & H). apply Ok_inj in H. subst s. cbn [en_hexAssign en_type].
  unfold enum_hex_assign in Hh. apply bind_Ok in Hh as (h & Eh & Hh). intros ->.
  destruct (is_nil (get_prop p (L "hexAssign"))) eqn:En.
  - apply Ok_inj in Hh. subst h. unfold bool_prop in Eh. destruct old as [o|].
    + assert (Et : t = en_type o) by (apply int_update_type_spec in Ht; exact Ht). subst t. apply (Ho o eq_refl).
      apply bind_Ok in Eh as (? & _ & Eh). unfold get_prop in En. destruct (find_prop p (L "hexAssign")) as [[|? ?]|]; try discriminate En; cbn in Eh; congruence.
    + exfalso. apply bind_Ok in Eh as (? & _ & Eh). unfold get_prop in En. destruct (find_prop p (L "hexAssign")) as [[|? ?]|]; try discriminate En; cbn in Eh; congruence.
  - destruct (is_unsigned t); [reflexivity|discriminate].
Qed.
Lemma enum_declared_gen s : enum_declared s -> enum_gen s.
Proof.
  induction 1 as [e c p n s He V1 V2 H|e c p n o s He V1 V2 D IH H].
  - destruct (enum_parse_facts e c p n None s He I H) as (A & _ & (new & E & _ & _ & F) & _). constructor; [exact A| |].
    + apply (hex_ok e c p n None s); [discriminate|exact H].
    + rewrite E. cbn [eold app]. eapply Forall_impl; [|exact F]. intros x. cbn beta. lia.
  - destruct (enum_parse_facts e c p n (Some o) s He (eg_inv o IH) H) as (A & _ & (new & E & _ & _ & F) & _). constructor; [exact A| |].
    + apply (hex_ok e c p n (Some o) s); [|exact H]. intros o' [= <-]. apply (eg_hex o IH).
    + rewrite E. cbn [eold]. apply Forall_app. split; [exact (eg_vers o IH)|]. eapply Forall_impl; [|exact F]. intros x. cbn beta. lia.
Qed.
Lemma enum_declared_reachable s : enum_declared s -> enum_reachable s.
Proof. induction 1; [eapply er_fresh|eapply er_reuse]; eauto. Qed.

(** ** Numbers *)
Definition in_type (t : int_type) (v : Z) : Prop := is64 v /\ in_limits (is_big t) (min_type_value t) (max_type_value t) v = true.
Lemma uns_cmp b v : is64 v -> uns b v = as_cmp b v.
Proof. intros H. unfold uns, as_cmp. destruct b; reflexivity. Qed.
Lemma stands_uns t v z : stands_for t v z <-> z = uns (is_big t) v.
Proof. rewrite stands_iff. unfold uns, as_cmp. destruct (is_big t); tauto. Qed.
Lemma uns_small t v : in_type t v -> is_unsigned t = true -> to_u64 v = uns (is_big t) v.
Proof.
  intros [H1 H2] U. unfold uns. destruct (is_big t) eqn:B; [reflexivity|]. unfold in_limits, as_cmp in H2.
  apply to_u64_small; [|exact H1]. destruct t; try discriminate U; try discriminate B; cbn [min_type_value max_type_value] in H2; lia.
Qed.
Lemma number_text s v t : enum_gen s -> in_type (en_type s) v -> value_to_string s v = Ok t -> constant t (uns (is_big (en_type s)) v).
Proof.
  intros G I H. unfold value_to_string in H. destruct (is_big (en_type s) || (0 <? hex_width s)) eqn:E.
  - apply Ok_inj in H. subst t.
    assert (H0 : 0 <= hex_width s).
    { unfold hex_width. destruct (en_hexAssign s); [|lia]. destruct (einv_bits s (eg_inv s G)) as (B & _). lia. }
    assert (to_u64 v = uns (is_big (en_type s)) v) as <-.
    { destruct (is_big (en_type s)) eqn:B; [reflexivity|]. rewrite <- B. apply uns_small; [exact I|]. apply (eg_hex s G).
      unfold hex_width in E. destruct (en_hexAssign s); [reflexivity|discriminate E]. }
    apply constant_unsigned; [apply to_u64_range|exact H0].
  - destruct I as [I _]. apply orb_false_iff in E as [-> _]. cbn [uns]. apply numS_spec; [exact I|exact H].
Qed.

(** ** Order *)
Definition big_of (s : enum_state) : bool := is_big (en_type s).
Lemma rev_In s v n : In (v, n) (rev_values s) <-> exists x, In (n, x) (en_values s) /\ v = v_value x.
Proof.
  unfold rev_values. rewrite sort_In, in_map_iff. split.
  - intros ([m x] & E & I). cbn [fst snd] in E. apply pair_equal_spec in E as [<- <-]. eauto.
  - intros (x & I & ->). exists (n, x). auto.
Qed.
Lemma sorted_rev_perm s : Permutation (sorted_rev s) (rev_values s).
Proof. unfold sorted_rev. destruct (is_big (en_type s)); [apply sort_perm|reflexivity]. Qed.
Lemma sorted_rev_In s v n : In (v, n) (sorted_rev s) <-> exists x, In (n, x) (en_values s) /\ v = v_value x.
Proof. rewrite <- rev_In. split; apply Permutation_in; [|symmetry]; apply sorted_rev_perm. Qed.
Lemma rev_names s : Permutation (map snd (rev_values s)) (map fst (en_values s)).
Proof. unfold rev_values. rewrite (sort_perm _ _). rewrite map_map. cbn [snd]. reflexivity. Qed.
Lemma SSorted_impl {A} (R Q : A -> A -> Prop) l : (forall a b, R a b -> Q a b) -> StronglySorted R l -> StronglySorted Q l.
Proof. intros H S. induction S as [|x l S IH F]; constructor; [exact IH|]. eapply Forall_impl; [|exact F]. auto. Qed.
Lemma key_sorted {A} (k : A -> Z) l : StronglySorted (fun a b => k a <= k b) (isort (fun a b => k a <? k b) l).
Proof.
  apply (SSorted_impl (fun a b => (k b <? k a) = false)); [intros; lia|].
  apply sort_sorted with (P := fun _ => True); try (intros; lia). apply Forall_forall. auto.
Qed.
Lemma rev_sorted s : StronglySorted (fun a b => fst a <= fst b) (rev_values s).
Proof. unfold rev_values. exact (key_sorted fst _). Qed.
Lemma sorted_rev_sorted s : StronglySorted (fun a b => uns (big_of s) (fst a) <= uns (big_of s) (fst b)) (sorted_rev s).
Proof.
  unfold sorted_rev, big_of. destruct (is_big (en_type s)); [exact (key_sorted (fun a : Z * str => to_u64 (fst a)) _)|exact (rev_sorted s)].
Qed.
Lemma sorted_head {A} (R : A -> A -> Prop) x l y : (forall a, R a a) -> StronglySorted R (x :: l) -> In y (x :: l) -> R x y.
Proof. intros H S [<-|I]; [apply H|]. inversion S as [|? ? _ F]; subst. rewrite Forall_forall in F. auto. Qed.
Lemma sorted_last {A} (R : A -> A -> Prop) l y d : (forall a, R a a) -> StronglySorted R l -> In y l -> R y (last l d).
Proof.
  intros H S. revert y. induction S as [|x l S IH F]; intros y I; [destruct I|]. destruct l as [|z l].
  - destruct I as [<-|[]]. apply H.
  - change (last (x :: z :: l) d) with (last (z :: l) d). destruct I as [<-|I]; [|now apply IH].
    rewrite Forall_forall in F. apply F. clear. revert z. induction l as [|w l IH]; intros z; [now left|]. right. apply IH.
Qed.
Lemma last_In {A} (l : list A) d : l <> [] -> In (last l d) l.
Proof.
  induction l as [|x l IH]; [congruence|]. intros _. destruct l as [|y l]; [now left|]. right. apply IH. discriminate.
Qed.
Lemma sorted_filter2 {A} (R : A -> A -> Prop) f l : StronglySorted R l -> StronglySorted R (filter f l).
Proof.
  induction 1 as [|x l S IH F]; [constructor|]. cbn [filter]. destruct (f x); [|exact IH]. constructor; [exact IH|].
  rewrite Forall_forall in *. intros y I. apply filter_In in I as [I _]. auto.
Qed.
Lemma sorted_map {A B} (f : A -> B) (R : B -> B -> Prop) l : StronglySorted (fun a b => R (f a) (f b)) l -> StronglySorted R (map f l).
Proof. induction 1 as [|x l S IH F]; [constructor|]. cbn [map]. constructor; [exact IH|]. apply Forall_map. exact F. Qed.

(** ** Lines of values *)
Lemma name_text n : parseIsValidName n = true -> flat n /\ ~ In "#"%char n /\ tame n /\ exists c r, n = c :: r /\ c <> " "%char.
Proof.
  intros H. apply valid_identifier in H as [[_ W] (c & r & -> & L0)]. rewrite Forall_forall in W.
  assert (K : forall x, In x (c :: r) -> ~ In x [newline; "#"; "\"; " "]%char).
  { intros x I J. apply W in I. cbn in J. destruct J as [<-|[<-|[<-|[<-|[]]]]]; destruct I as [I|I]; vm_compute in I; intuition discriminate. }
  repeat split.
  - intros I. apply K in I. apply I. cbn. tauto.
  - intros I. apply K in I. apply I. cbn. tauto.
  - intros I. apply K in I. apply I. cbn. tauto.
  - exists c, r. split; [reflexivity|]. intros ->. apply (K " "%char); [now left|]. cbn. tauto.
Qed.
Lemma constant_text a v : constant a v -> flat a /\ ~ In "#"%char a /\ tame a /\ a <> [].
Proof.
  intros C. repeat split.
  - apply constant_const in C. rewrite Forall_forall in C. intros I. apply C in I as [I _]. congruence.
  - apply (constant_no _ _ _ C). cbn. tauto.
  - apply (constant_no _ _ _ C). cbn. tauto.
  - intros ->. inversion C as [? ? ? Lt| |]. inversion Lt as [d ? l ? ? N|d ? l ? ? N]. inversion N; subst; destruct l; try discriminate; destruct ds; discriminate.
Qed.
Lemma dec_tame v : 0 <= v < two64 -> tame (dec_str v).
Proof.
  intros H. destruct (dec_str_spec v H) as [N _]. apply numeral_const in N; [|lia]. rewrite Forall_forall in N. intros I. apply N in I as [_ I].
  apply I. cbn. tauto.
Qed.
Lemma value_doc_spec ge c name v : tame name -> tame (v_description v) -> tame (v_displayName v) -> 0 <= v_depr v < two64 ->
  exists d, value_doc ge c name v = Ok (join ([nl] ++ L " ///  ") (lines_of d)) /\ doc_start d /\ tame d /\ d <> [].
Proof.
  intros Tn Td Ts Hv. unfold value_doc.
  assert (Lit : forall x y z, doc_start (L " ///" ++ x ++ y ++ z) /\ (tame x -> tame y -> tame z -> tame (L " ///" ++ x ++ y ++ z)) /\ L " ///" ++ x ++ y ++ z <> []).
  { intros x y z. split; [apply start_lit|]. split; [|discriminate]. intros A B C. repeat apply tame_app; auto. apply tame_lit. reflexivity. }
  assert (K : exists d, (if negb (is_nil (v_description v)) then genStrMakeMultiline (L " ///< " ++ v_description v) 40 true
        else if match c_sem c with SemMessageId => true | _ => false end then
          Ok (if negb (is_nil (v_displayName v)) then L " ///< message id of <b>" ++ v_displayName v ++ L "</b> message."
              else L " ///< message id of @b " ++ name ++ L " message.")
        else Ok (if negb (is_nil (v_displayName v)) then L " ///< value <b>" ++ v_displayName v ++ L "</b>."
                 else L " ///< value @b " ++ name ++ L ".")) = Ok d /\ doc_start d /\ tame d /\ d <> []).
  { destruct (negb (is_nil (v_description v))).
    - destruct (multiline_spec (L " ///< " ++ v_description v) 40 true) as (r & E & W). exists r. split; [exact E|].
      destruct (start_wrapped _ _ W) as [S K]. split; [exact S|]. split; [exact (K Td)|]. apply wraps_drop in W. intros ->. inversion W.
    - destruct (match c_sem c with SemMessageId => true | _ => false end), (negb (is_nil (v_displayName v))); (eexists; split; [reflexivity|]).
      + destruct (Lit (L "< message id of <b>") (v_displayName v) (L "</b> message.")) as (A & B & C). split; [exact A|]. split; [|exact C].
        apply B; [apply tame_lit; reflexivity|exact Ts|apply tame_lit; reflexivity].
      + destruct (Lit (L "< message id of @b ") name (L " message.")) as (A & B & C). split; [exact A|]. split; [|exact C].
        apply B; [apply tame_lit; reflexivity|exact Tn|apply tame_lit; reflexivity].
      + destruct (Lit (L "< value <b>") (v_displayName v) (L "</b>.")) as (A & B & C). split; [exact A|]. split; [|exact C].
        apply B; [apply tame_lit; reflexivity|exact Ts|apply tame_lit; reflexivity].
      + destruct (Lit (L "< value @b ") name (L ".")) as (A & B & C). split; [exact A|]. split; [|exact C].
        apply B; [apply tame_lit; reflexivity|exact Tn|apply tame_lit; reflexivity]. }
  destruct K as (d & -> & S & Td' & N). cbn [bind]. destruct (genIsElementDeprecated (ge_ver ge) (v_depr v)).
  - exists (d ++ [nl] ++ L "Deprecated since version " ++ dec_str (v_depr v) ++ L "."). split; [apply replace_nl|]. split; [apply start_more, S|]. split.
    + repeat apply tame_app; auto; try (apply tame_lit; reflexivity). apply dec_tame. exact Hv.
    + destruct d; [congruence|discriminate].
  - exists d. split; [apply replace_nl|]. auto.
Qed.
(** ** All lines *)
Definition existing (ge : gen_env) (s : enum_state) (r : Z * str) : bool :=
  match assoc (snd r) (en_values s) with Some x => v_since x <=? genSchemaVersion (ge_ver ge) | None => false end.
Definition enumerator_of (s : enum_state) (r : Z * str) : txt * Z := (snd r, uns (big_of s) (fst r)).
Lemma never_small : never < two64. Proof. reflexivity. Qed.
Lemma value_In s n x : enum_gen s -> In (n, x) (en_values s) ->
  assoc n (en_values s) = Some x /\ parseIsValidName n = true /\ in_type (en_type s) (v_value x) /\ 0 <= v_since x < v_depr x /\ v_depr x <= never.
Proof.
  intros G I. destruct (einv_vals s (eg_inv s G)) as [N F]. rewrite Forall_forall in F. destruct (F _ I) as (A & B & C). cbn [fst snd] in *.
  pose proof (eg_vers s G) as V. rewrite Forall_forall in V. apply V in I as V'. cbn [snd] in V'. split; [now apply NoDup_assoc|]. split; [exact A|]. split; [split; assumption|exact V'].
Qed.
Lemma value_lines_rows ge c s : enum_gen s -> plain_docs s -> forall l,
  (forall r, In r l -> exists x, In (snd r, x) (en_values s) /\ fst r = v_value x) -> forall ls,
  mapM (fun r : Z * str =>
          match assoc (snd r) (en_values s) with
          | None => Ok []
          | Some v =>
              if negb (genDoesElementExist (ge_ver ge) (v_since v) (v_depr v) false) then Ok []
              else t <- value_to_string s (fst r) ;;
                   d <- value_doc ge c (snd r) v ;;
                   line <- value_line (snd r) t d ;;
                   Ok [line]
          end) l = Ok ls ->
  exists rss, Forall2 rows_are (concat ls) rss /\
    forall more ws, enumerators more ws -> enumerators (concat rss ++ more) (map (enumerator_of s) (filter (existing ge s) l) ++ ws).
Proof.
  intros G P l. induction l as [|[v n] l IH]; intros Hl ls H.
  - apply Ok_inj in H. subst ls. exists []. split; [constructor|]. intros more ws M. exact M.
  - cbn [mapM] in H. apply bind_Ok in H as (y & Hy & H). apply bind_Ok in H as (ys & Hys & H). apply Ok_inj in H. subst ls.
    destruct (IH (fun r I => Hl r (or_intror I)) ys Hys) as (rss & F & En). clear IH Hys.
    destruct (Hl (v, n) (or_introl eq_refl)) as (x & I & Ev). cbn [fst snd] in *.
    destruct (value_In s n x G I) as (Ea & Vn & It & V1 & V2). rewrite Ea in Hy. cbn [filter].
    assert (Ex : existing ge s (v, n) = (v_since x <=? genSchemaVersion (ge_ver ge))) by (unfold existing; cbn [snd]; now rewrite Ea).
    rewrite Ex. unfold genDoesElementExist in Hy. cbn [andb] in Hy.
    destruct (genSchemaVersion (ge_ver ge) <? v_since x) eqn:E.
    + cbn [negb] in Hy. apply Ok_inj in Hy. subst y. cbn [concat app]. exists rss. split; [exact F|].
      destruct (v_since x <=? genSchemaVersion (ge_ver ge)) eqn:E2; [lia|]. exact En.
    + cbn [negb] in Hy. apply bind_Ok in Hy as (t & Ht & Hy). apply bind_Ok in Hy as (d & Hd & Hy). apply bind_Ok in Hy as (line & Hline & Hy).
      apply Ok_inj in Hy. subst y. destruct (v_since x <=? genSchemaVersion (ge_ver ge)) eqn:E2; [|lia].
      destruct (name_text n Vn) as (Fn & Hn & Tn & c0 & n0 & Ec & Nb).
      unfold plain_docs in P. rewrite Forall_forall in P. pose proof (P _ I) as [Td Ts]. cbn [snd] in Td, Ts. pose proof never_small as NS.
      destruct (value_doc_spec ge c n x Tn Td Ts) as (doc & Ed & Sd & Tdoc & Nd); [lia|]. rewrite Ed in Hd. apply Ok_inj in Hd. subst d.
      subst v. pose proof (number_text s _ t G It Ht) as C. destruct (constant_text _ _ C) as (Ft & Hht & _ & Nt).
      destruct (value_rows n t doc (uns (is_big (en_type s)) (v_value x)) c0 n0 Ec Nb Fn Hn C Ft Hht Nt Sd Tdoc Nd) as (line' & rows & El & R & K).
      rewrite El in Hline. apply Ok_inj in Hline. subst line'. cbn [concat app]. exists (rows :: rss). split; [constructor; assumption|].
      intros more ws M. cbn [concat map app]. rewrite <- app_assoc. apply K. apply En. exact M.
Qed.

(** ** Extra names *)
Lemma free_name_spec values : forall n name r, free_name n values name = Ok r ->
  (exists k, r = name ++ repeat "_"%char k) /\ ~ In r (map fst values).
Proof.
  induction n as [|n IH]; intros name r H; cbn [free_name] in H.
  - destruct (has_key name values) eqn:E; [discriminate|]. apply Ok_inj in H. subst r. split; [exists 0%nat; cbn; now rewrite app_nil_r|].
    intros I. apply has_key_iff in I. congruence.
  - destruct (has_key name values) eqn:E.
    + apply IH in H as [[k ->] N]. split; [|exact N]. exists (S k). rewrite <- app_assoc. reflexivity.
    + apply Ok_inj in H. subst r. split; [exists 0%nat; cbn; now rewrite app_nil_r|]. intros I. apply has_key_iff in I. congruence.
Qed.
(** as many tries as there are values are enough *)
Lemma free_name_stuck values : forall n name, free_name n values name = UB ->
  forall k, (k <= n)%nat -> In (name ++ repeat "_"%char k) (map fst values).
Proof.
  induction n as [|n IH]; intros name H k Hk; cbn [free_name] in H; (destruct (has_key name values) eqn:E; [|discriminate]); apply has_key_iff in E.
  - assert (k = 0%nat) as -> by lia. cbn. now rewrite app_nil_r.
  - destruct k as [|k]; [cbn; now rewrite app_nil_r|]. pose proof (IH _ H k ltac:(lia)) as J. rewrite <- app_assoc in J. exact J.
Qed.
Lemma free_name_Ok values name : exists r, free_name (length values) values name = Ok r.
Proof.
  destruct (free_name (length values) values name) as [r| |] eqn:E; [eauto| |].
  - exfalso. revert name E. generalize (length values). induction n as [|n IH]; intros name E; cbn [free_name] in E; destruct (has_key name values); try discriminate. eauto.
  - exfalso. pose proof (free_name_stuck _ _ _ E) as H.
    assert (NoDup (map (fun k => name ++ repeat "_"%char k) (seq 0 (S (length values))))) as ND.
    { apply FinFun.Injective_map_NoDup; [|apply seq_NoDup]. intros a b Eab. apply app_inv_head in Eab. apply (f_equal (@length ascii)) in Eab. now rewrite !repeat_length in Eab. }
    assert (incl (map (fun k => name ++ repeat "_"%char k) (seq 0 (S (length values)))) (map fst values)) as IN.
    { intros x I. apply in_map_iff in I as (k & <- & I). apply in_seq in I. apply H. lia. }
    pose proof (NoDup_incl_length ND IN) as Le. rewrite !map_length, seq_length in Le. lia.
Qed.
Lemma adjust_name s upper lower name : enum_gen s -> (forall f, adjust_first f upper = upper \/ adjust_first f upper = lower) ->
  genAdjustName s upper = Ok name -> extra_name upper lower name /\ ~ In name (map fst (en_values s)).
Proof.
  intros G A H. unfold genAdjustName in H. destruct (sorted_rev s) as [|[v f] l]; [discriminate|].
  apply free_name_spec in H as [[k ->] N]. split; [|exact N]. exists k. destruct (A f) as [->| ->]; auto.
Qed.
Lemma first_names f : adjust_first f (L "FirstValue") = T "FirstValue" \/ adjust_first f (L "FirstValue") = T "firstValue".
Proof. unfold adjust_first. destruct f as [|c f]; [now left|]. destruct (ch_eqb (tolower c) c); [right|left]; reflexivity. Qed.
Lemma last_names f : adjust_first f (L "LastValue") = T "LastValue" \/ adjust_first f (L "LastValue") = T "lastValue".
Proof. unfold adjust_first. destruct f as [|c f]; [now left|]. destruct (ch_eqb (tolower c) c); [right|left]; reflexivity. Qed.
Lemma limit_names f : adjust_first f (L "ValuesLimit") = T "ValuesLimit" \/ adjust_first f (L "ValuesLimit") = T "valuesLimit".
Proof. unfold adjust_first. destruct f as [|c f]; [now left|]. destruct (ch_eqb (tolower c) c); [right|left]; reflexivity. Qed.
Lemma extra_name_text u l n : extra_name u l n -> forallb (fun c => negb (Ascii.eqb c newline)) (u ++ l) = true ->
  match u, l with c :: _, d :: _ => c <> " "%char /\ d <> " "%char | _, _ => False end -> flat n /\ exists c r, n = c :: r /\ c <> " "%char.
Proof.
  intros [k [->| ->]] F Nb; rewrite forallb_app in F; apply andb_true_iff in F as [Fu Fl]; destruct u as [|c u], l as [|d l]; try contradiction; destruct Nb.
  - split; [|exists c, (u ++ repeat "_"%char k); auto]. apply flat_app; [apply flat_dec, Fu|]. intros I. apply repeat_spec in I. discriminate I.
  - split; [|exists d, (l ++ repeat "_"%char k); auto]. apply flat_app; [apply flat_dec, Fl|]. intros I. apply repeat_spec in I. discriminate I.
Qed.
Lemma extra_row s u l v doc line : enum_gen s -> (forall f, adjust_first f u = u \/ adjust_first f u = l) ->
  forallb (fun c => negb (Ascii.eqb c newline)) (u ++ l) = true ->
  match u, l with c :: _, d :: _ => c <> " "%char /\ d <> " "%char | _, _ => False end ->
  forallb (fun c => negb (Ascii.eqb c newline) && negb (Ascii.eqb c "\"))  doc = true ->
  in_type (en_type s) v -> extra_line s u v doc = Ok line ->
  exists n, extra_name u l n /\ ~ In n (map fst (en_values s)) /\ rows_are line [line] /\
    forall more ws, enumerators more ws -> enumerators (line :: more) ((n, uns (big_of s) v) :: ws).
Proof.
  intros G A F Nb Fd It H. unfold extra_line in H. apply bind_Ok in H as (n & Hn & H). apply bind_Ok in H as (t & Ht & H). apply Ok_inj in H. subst line.
  destruct (adjust_name s u l n G A Hn) as [En Nn]. exists n. split; [exact En|]. split; [exact Nn|].
  destruct (extra_name_text u l n En F Nb) as (Fn & c & r & -> & Nc). pose proof (number_text s v t G It Ht) as C. destruct (constant_text _ _ C) as (Ft & _ & _ & _).
  assert (D : flat doc /\ tame doc).
  { rewrite forallb_forall in Fd. split; intros I; apply Fd in I; discriminate I. }
  destruct D as [D1 D2]. split.
  - apply (rows_flat c (r ++ L " = " ++ t ++ L ", ///< " ++ doc)); [|exact Nc].
    change (flat ((c :: r) ++ L " = " ++ t ++ L ", ///< " ++ doc)). repeat apply flat_app; auto; apply flat_dec; reflexivity.
  - intros more ws M. change ((c :: r) ++ L " = " ++ t ++ L ", ///< " ++ doc) with ((c :: r) ++ T " = " ++ t ++ T "," ++ (T " ///< " ++ doc)).
    apply (en_value (c :: r) t (uns (is_big (en_type s)) v)); [exact C| |exact M].
    exists 1%nat. right. exists (T "///" ++ (T "< " ++ doc)). split; [reflexivity|]. apply comment_lead.
    + apply flat_app; [apply flat_dec; reflexivity|exact D1].
    + apply tame_app; [apply tame_lit; reflexivity|exact D2].
Qed.
Lemma limit_fits t v : in_type t v -> uns (is_big t) v < uns (is_big t) (max_type_value t) -> is64 (v + 1) ->
  in_type t (v + 1) /\ uns (is_big t) (v + 1) = uns (is_big t) v + 1.
Proof.
  intros [H1 H2] Hl H3. unfold in_type, in_limits, as_cmp, uns in *. unfold is64, int_min, int_max in *.
  destruct (is_big t) eqn:B.
  - assert (min_type_value t = 0) as E1 by (destruct t; try discriminate B; reflexivity).
    assert (to_u64 (max_type_value t) = 2 ^ 64 - 1) as E2 by (destruct t; try discriminate B; reflexivity). rewrite E1, E2 in *.
    change (to_u64 0) with 0 in *.
    assert (to_u64 (v + 1) = to_u64 v + 1).
    { unfold to_u64, two64 in *. rewrite Z.add_mod by lia. rewrite (Z.mod_small 1) by lia. apply Z.mod_small. lia. }
    split; [split; [lia|lia]|lia].
  - split; [split; [lia|lia]|lia].
Qed.
Lemma limit_type t v : in_type t v -> (type_values t (uns (is_big t) v + 1) <-> uns (is_big t) v < uns (is_big t) (max_type_value t)).
Proof.
  intros [H1 H2]. rewrite <- type_limits_spec, reported_iff. unfold in_limits, as_cmp, uns in *. destruct (is_big t); lia.
Qed.
Definition numbers_of (s : enum_state) : list Z := map (fun r => uns (big_of s) (fst r)) (sorted_rev s).
Lemma sorted_rev_nonempty s : enum_gen s -> sorted_rev s <> [].
Proof.
  intros G E. pose proof (sorted_rev_perm s) as P. rewrite E in P. apply Permutation_nil in P. unfold rev_values in P.
  pose proof (sort_perm rev_ltb (map (fun x => (v_value (snd x), fst x)) (en_values s))) as P2. rewrite P in P2. apply Permutation_nil in P2.
  apply map_eq_nil in P2. exact (einv_nonempty s (eg_inv s G) P2).
Qed.
Lemma sorted_rev_type s r : enum_gen s -> In r (sorted_rev s) -> in_type (en_type s) (fst r).
Proof. intros G I. destruct r as [v n]. apply sorted_rev_In in I as (x & I & ->). apply (value_In s n x G I). Qed.
Lemma upper_first u1 l1 u2 l2 n : extra_name u1 l1 n -> extra_name u2 l2 n ->
  match u1, l1, u2, l2 with a :: _, b :: _, c :: _, d :: _ => a <> c /\ a <> d /\ b <> c /\ b <> d | _, _, _, _ => False end -> False.
Proof.
  intros [k [->| ->]] [j [E|E]] N; destruct u1, l1, u2, l2; try contradiction; cbn in E; injection E as E _; intuition.
Qed.
Lemma extra_lines_rows s ls : enum_gen s -> extra_lines s = Ok ls ->
  exists lo hi xs rss, (forall z, In z (numbers_of s) -> lo <= z <= hi) /\ In lo (numbers_of s) /\ In hi (numbers_of s) /\
    extra_values (en_type s) lo hi xs /\ NoDup (map fst xs) /\ (forall n, In n (map fst xs) -> ~ In n (map fst (en_values s))) /\
    Forall2 rows_are ls rss /\ (1 < length ls)%nat /\ enumerators (concat rss) xs.
Proof.
  intros G H. unfold extra_lines in H. pose proof (sorted_rev_nonempty s G) as NE. pose proof (sorted_rev_sorted s) as SS.
  unfold numbers_of. destruct (sorted_rev s) as [|[first fn] l] eqn:E; [congruence|]. rewrite <- E in *. set (lst := last (sorted_rev s) (0, [])) in *.
  assert (Il : In lst (sorted_rev s)) by (apply last_In; rewrite E; discriminate).
  assert (If : In (first, fn) (sorted_rev s)) by (rewrite E; now left).
  assert (Lo : forall z, In z (map (fun r => uns (big_of s) (fst r)) (sorted_rev s)) -> uns (big_of s) first <= z <= uns (big_of s) (fst lst)).
  { intros z I. apply in_map_iff in I as (r & <- & I). split.
    - pose proof I as I'. rewrite E in I'. pose proof SS as SS'. rewrite E in SS'.
      exact (sorted_head (fun a b => uns (big_of s) (fst a) <= uns (big_of s) (fst b)) (first, fn) l r (fun a => Z.le_refl _) SS' I').
    - exact (sorted_last (fun a b => uns (big_of s) (fst a) <= uns (big_of s) (fst b)) _ r (0, []) (fun a => Z.le_refl _) SS I). }
  assert (Tf : in_type (en_type s) first) by exact (sorted_rev_type s _ G If).
  assert (Tl : in_type (en_type s) (fst lst)) by exact (sorted_rev_type s _ G Il).
  apply bind_Ok in H as (a & Ha & H). apply bind_Ok in H as (b & Hb & H). apply bind_Ok in H as (c & Hc & H). apply Ok_inj in H. subst ls.
  assert (X1 : forallb (fun c => negb (Ascii.eqb c newline)) (T "FirstValue" ++ T "firstValue") = true) by (vm_compute; reflexivity).
  assert (Y1 : match T "FirstValue", T "firstValue" with c :: _, d :: _ => c <> " "%char /\ d <> " "%char | _, _ => False end) by (split; discriminate).
  assert (Z1 : forallb (fun c => negb (Ascii.eqb c newline) && negb (Ascii.eqb c "\"))  (L "First defined value.") = true) by (vm_compute; reflexivity).
  assert (X2 : forallb (fun c => negb (Ascii.eqb c newline)) (T "LastValue" ++ T "lastValue") = true) by (vm_compute; reflexivity).
  assert (Y2 : match T "LastValue", T "lastValue" with c :: _, d :: _ => c <> " "%char /\ d <> " "%char | _, _ => False end) by (split; discriminate).
  assert (Z2 : forallb (fun c => negb (Ascii.eqb c newline) && negb (Ascii.eqb c "\"))  (L "Last defined value.") = true) by (vm_compute; reflexivity).
  assert (X3 : forallb (fun c => negb (Ascii.eqb c newline)) (T "ValuesLimit" ++ T "valuesLimit") = true) by (vm_compute; reflexivity).
  assert (Y3 : match T "ValuesLimit", T "valuesLimit" with c :: _, d :: _ => c <> " "%char /\ d <> " "%char | _, _ => False end) by (split; discriminate).
  assert (Z3 : forallb (fun c => negb (Ascii.eqb c newline) && negb (Ascii.eqb c "\"))  (L "Upper limit for defined values.") = true) by (vm_compute; reflexivity).
  destruct (extra_row s (T "FirstValue") (T "firstValue") first (L "First defined value.") a G first_names X1 Y1 Z1 Tf Ha) as (na & Na & Fa & Ra & Ea).
  destruct (extra_row s (T "LastValue") (T "lastValue") (fst lst) (L "Last defined value.") b G last_names X2 Y2 Z2 Tl Hb) as (nb & Nb & Fb & Rb & Eb).
  exists (uns (big_of s) first), (uns (big_of s) (fst lst)).
  assert (Rh : rows_are ([nl] ++ L "// --- Extra values generated for convenience ---") [[]; L "// --- Extra values generated for convenience ---"]).
  { apply (rows_more [] [[]] (L "// --- Extra values generated for convenience ---") [L "// --- Extra values generated for convenience ---"]); [exact rows_nil|].
    apply (rows_flat "/"%char (L "/ --- Extra values generated for convenience ---")); [apply flat_dec; reflexivity|discriminate]. }
  assert (Cm : comment (L "// --- Extra values generated for convenience ---")).
  { exists (L " --- Extra values generated for convenience ---"). split; [reflexivity|]. split; apply in_b_not; vm_compute; reflexivity. }
  assert (Nab : na <> nb) by (intros ->; apply (upper_first _ _ _ _ _ Na Nb); repeat split; discriminate).
  destruct (has_limit s (fst lst)) eqn:HL.
  - apply bind_Ok in Hc as (n & Hn & Hc). apply bind_Ok in Hc as (x & Hx & Hc). apply Ok_inj in Hc. subst c. apply s64_Ok in Hn as [-> Hn].
    unfold has_limit in HL. apply Z.ltb_lt in HL. destruct (limit_fits _ _ Tl HL) as [Tn En]; [unfold is64, int_min, int_max in *; lia|].
    clear X1 X2 Y1 Y2 Z1 Z2.
    destruct (extra_row s (T "ValuesLimit") (T "valuesLimit") (fst lst + 1) (L "Upper limit for defined values.") x G limit_names X3 Y3 Z3 Tn Hx) as (nc & Nc & Fc & Rc & Ec).
    clear X3 Y3 Z3.
    exists [(na, uns (big_of s) first); (nb, uns (big_of s) (fst lst)); (nc, uns (big_of s) (fst lst) + 1)].
    exists [[[]; L "// --- Extra values generated for convenience ---"]; [a]; [b]; [x]].
    split; [exact Lo|]. split; [exact (in_map (fun r => uns (big_of s) (fst r)) _ _ If)|]. split; [exact (in_map (fun r => uns (big_of s) (fst r)) _ _ Il)|].
    split; [constructor; try assumption; apply limit_type; assumption|].
    split.
    { cbn [map fst]. assert (na <> nc) by (intros ->; apply (upper_first _ _ _ _ _ Na Nc); repeat split; discriminate).
      assert (nb <> nc) by (intros ->; apply (upper_first _ _ _ _ _ Nb Nc); repeat split; discriminate).
      repeat constructor; cbn; intuition congruence. }
    split; [intros m [<-|[<-|[<-|[]]]]; assumption|]. split; [repeat (constructor; [assumption|]); constructor|]. split; [cbn; lia|].
    cbn [concat app]. apply en_blank. apply en_comment; [exact Cm|]. apply Ea, Eb. unfold big_of in *. rewrite <- En. apply Ec. constructor.
  - apply Ok_inj in Hc. subst c. unfold has_limit in HL. apply Z.ltb_ge in HL.
    clear X1 X2 Y1 Y2 Z1 Z2 X3 Y3 Z3.
    exists [(na, uns (big_of s) first); (nb, uns (big_of s) (fst lst))].
    exists [[[]; L "// --- Extra values generated for convenience ---"]; [a]; [b]].
    split; [exact Lo|]. split; [exact (in_map (fun r => uns (big_of s) (fst r)) _ _ If)|]. split; [exact (in_map (fun r => uns (big_of s) (fst r)) _ _ Il)|].
    split; [constructor; try assumption; intros X; apply limit_type in X; [unfold big_of in *; lia|assumption]|].
    split; [cbn [map fst]; repeat constructor; cbn; intuition congruence|].
    split; [intros m [<-|[<-|[]]]; assumption|]. split; [repeat (constructor; [assumption|]); constructor|]. split; [cbn; lia|].
    cbn [concat app]. apply en_blank. apply en_comment; [exact Cm|]. apply Ea, Eb. constructor.
Qed.

(** ** The definition *)
Definition enum_pieces : list piece :=
  [Text (L "/// @brief Values enumerator for" ++ [nl] ++ L "///     @ref "); Hole (T "SCOPE");
   Text (L " field." ++ [nl] ++ L "enum class ValueType : "); Hole (T "TYPE"); Text ([nl] ++ L "{" ++ [nl] ++ L "    "); Hole (T "VALUES");
   Text ([nl] ++ L "};" ++ [nl])].
Lemma enum_template : template enum_pieces.
Proof.
  unfold enum_pieces. repeat (constructor; [apply plain_no_hash, in_b_not; vm_compute; reflexivity|apply name_no_hash, in_b_not; vm_compute; reflexivity|]).
  constructor. apply end_no_hash, in_b_not. vm_compute. reflexivity.
Qed.
Lemma type_text t len : flat (genCppIntTypeFor t len) /\ genCppIntTypeFor t len <> [].
Proof.
  unfold genCppIntTypeFor, var_base. destruct t; repeat (match goal with |- context [if ?b then _ else _] => destruct b end); (split; [apply flat_dec; reflexivity|discriminate]).
Qed.
Lemma join_long l : (1 < length l)%nat -> join [nl] l <> [].
Proof. destruct l as [|a [|b l]]; cbn [length]; try lia. intros _. rewrite join_cons2 by discriminate. destruct a; discriminate. Qed.
Lemma enum_text ge scope c s text vs rss ws : flat scope -> tame scope -> scope <> [] -> enum_values ge c s = Ok vs -> (1 < length vs)%nat ->
  Forall2 rows_are vs rss -> enumerators (concat rss) ws -> enum_def ge scope c s = Ok text ->
  enum_class text (genCppIntTypeFor (en_type s) (en_length s)) ws.
Proof.
  intros Fs Ts Ns Ev Nv F En H. unfold enum_def in H. rewrite Ev in H. cbn [bind] in H. rewrite list_join in H.
  set (ty := genCppIntTypeFor (en_type s) (en_length s)) in *. destruct (type_text (en_type s) (en_length s)) as [Ft Nt]. fold ty in Ft, Nt.
  set (V := join [nl] vs) in *. assert (NV : V <> []) by (apply join_long, Nv).
  change enum_templ with (template_text enum_pieces) in H. rewrite C36_filled in H; [|exact enum_template|].
  2: { intros k I. cbn [holes enum_pieces In] in I. repeat destruct I as [<-|I]; try contradiction; assumption. }
  apply Ok_inj in H. subst text.
  exists [T "/// @brief Values enumerator for"; T "///     @ref " ++ scope ++ T " field."], (concat rss).
  split.
  { constructor; [|constructor; [|constructor]].
    - apply (comment_lead (T " @brief Values enumerator for")); [apply flat_dec; reflexivity|apply tame_lit; reflexivity].
    - apply (comment_lead (T "     @ref " ++ scope ++ T " field.")).
      + repeat apply flat_app; auto; apply flat_dec; reflexivity.
      + repeat apply tame_app; auto; apply tame_lit; reflexivity. }
  split; [exact En|].
  assert (R : rows_are V (concat rss)) by (refine (EnumTextFacts.rows_join vs rss F _); intros ->; cbn in Nv; lia).
  fold (whole ([T "/// @brief Values enumerator for"; T "///     @ref " ++ scope ++ T " field."] ++ [T "enum class ValueType : " ++ ty; T "{"] ++ concat rss ++ [T "};"])).
  cbn [filled enum_pieces]. change (lookup (T "SCOPE") _) with scope. change (lookup (T "TYPE") _) with ty. change (lookup (T "VALUES") _) with V.
  repeat match goal with |- context [indented (column ?x) _] => generalize (column x); intro end.
  rewrite (indented_flat _ scope Fs), (indented_flat _ ty Ft).
  set (r1 := T "/// @brief Values enumerator for"). set (r2 := T "///     @ref " ++ scope ++ T " field."). set (r3 := T "enum class ValueType : " ++ ty).
  assert (A1 : rows_are r1 [r1]) by (apply (rows_flat "/"%char (T "// @brief Values enumerator for")); [apply flat_dec; reflexivity|discriminate]).
  assert (A2 : rows_are r2 [r2]).
  { apply (rows_flat "/"%char (T "//     @ref " ++ scope ++ T " field.")); [|discriminate]. change (flat r2). unfold r2. repeat apply flat_app; auto; apply flat_dec; reflexivity. }
  assert (A3 : rows_are r3 [r3]).
  { apply (rows_flat "e"%char (T "num class ValueType : " ++ ty)); [|discriminate]. change (flat r3). unfold r3. repeat apply flat_app; auto; apply flat_dec; reflexivity. }
  assert (A4 : rows_are (T "{") [T "{"]) by (apply (rows_flat "{"%char []); [apply flat_dec; reflexivity|discriminate]).
  assert (A5 : rows_are (T "};") [T "};"]) by (apply (rows_flat "}"%char (T ";")); [apply flat_dec; reflexivity|discriminate]).
  match goal with |- unindent true ?t = _ => replace t with (r1 ++ newline :: (r2 ++ newline :: (r3 ++ newline :: (T "{" ++ newline :: (repeat " "%char 4 ++ (indented n1 V ++ newline :: (T "};" ++ newline :: [])))))))
    by (unfold r2, r3; rewrite <- !app_assoc; reflexivity) end.
  rewrite A1, A2, A3, A4, unindent_blanks, unindent_indented, R, A5. rewrite !whole_app. cbn [unindent]. rewrite app_nil_r.
  change (whole [r1; r2]) with (whole ([r1] ++ [r2])). change (whole [r3; T "{"]) with (whole ([r3] ++ [T "{"])). rewrite !whole_app, <- !app_assoc. reflexivity.
Qed.
Theorem enum_classes ge scope c s text : enum_gen s -> plain_docs s -> flat scope -> tame scope -> scope <> [] -> enum_def ge scope c s = Ok text ->
  exists lo hi xs, enum_class text (genCppIntTypeFor (en_type s) (en_length s)) (map (enumerator_of s) (filter (existing ge s) (sorted_rev s)) ++ xs) /\
    (forall z, In z (numbers_of s) -> lo <= z <= hi) /\ In lo (numbers_of s) /\ In hi (numbers_of s) /\
    extra_values (en_type s) lo hi xs /\ NoDup (map fst xs) /\ (forall n, In n (map fst xs) -> ~ In n (map fst (en_values s))).
Proof.
  intros G P Fs Ts Ns H. pose proof H as H0. unfold enum_def in H. apply bind_Ok in H as (vs & Ev & _). pose proof Ev as Ev0. unfold enum_values in Ev.
  apply bind_Ok in Ev as (a & Ha & Ev). apply bind_Ok in Ev as (b & Hb & Ev). apply Ok_inj in Ev. subst vs.
  destruct (extra_lines_rows s b G Hb) as (lo & hi & xs & rb & L1 & L2 & L3 & X & Nx & Fx & Fb & Lb & Eb).
  unfold value_lines in Ha. apply bind_Ok in Ha as (ls & Hl & Ha). apply Ok_inj in Ha. subst a.
  destruct (value_lines_rows ge c s G P (sorted_rev s)) with (ls := ls) as (ra & Fa & Ea); [|exact Hl|].
  { intros [v n] I. apply sorted_rev_In in I. exact I. }
  exists lo, hi, xs. split; [|auto 8]. apply (enum_text ge scope c s text (concat ls ++ b) (ra ++ rb)); auto.
  - rewrite app_length. lia.
  - apply Forall2_app; assumption.
  - rewrite concat_app. apply Ea. exact Eb.
Qed.
