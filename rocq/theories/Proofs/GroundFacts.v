(** Conditions that passed verification refer to existing fields. *)
From Verif.Model Require Import Base Common Xml Units Field FieldCommon IntField EnumField SetField FloatField OptCond Composite.
From Verif.Spec Require Import Texts Ints Versions IntSpec EnumSpec XmlSpec FieldSpec CondSpec RefSpec.
From Verif.Proofs Require Import BaseFacts CommonFacts CondFacts XmlFacts IntFacts IntInv FieldInv FieldFacts OwnFacts.
Local Open Scope Z_scope.
Local Open Scope list_scope.

Lemma first_seg_step s first rest : first_seg s = (first, rest) -> step s first (rest_or_nil rest).
Proof.
  unfold first_seg, step. destruct (split_at "." s) as [[a b]|] eqn:E; injection 1 as <- <-.
  - apply split_at_spec in E as [-> N]. split; [exact N|]. right. reflexivity.
  - apply split_at_None in E. split; [exact E|]. left. auto.
Qed.
Lemma find_named_In k ms m : find_named k ms = Some m -> In m ms /\ f_name m = k.
Proof.
  induction ms as [|x ms IH]; cbn; [discriminate|]. destruct (str_eqb (f_name x) k) eqn:E.
  - injection 1 as <-. apply str_eqb_eq in E. auto.
  - intros H. destruct (IH H). auto.
Qed.
Definition target_of (i : ref_info) : target :=
  match ri_type i with RField => TheField | RInner => TheValue (ri_value i) | RSize => TheSize | RExists => ThePresence end.
Lemma prefix_spec s p r : ref_prefix s = (p, r) -> s = p ++ r /\ Forall (fun c => c = "#"%char \/ c = "?"%char) p.
Proof.
  revert p r. induction s as [|c s IH]; cbn; intros p r.
  - injection 1 as <- <-. auto.
  - destruct (ch_eqb c "#" || ch_eqb c "?")%bool eqn:E.
    + destruct (ref_prefix s) as [p' r'] eqn:P. injection 1 as <- <-. destruct (IH _ _ eq_refl) as [-> F]. split; [reflexivity|]. constructor; [|exact F].
      apply orb_prop in E as [E|E]; apply ch_eqb_eq in E; auto.
    + injection 1 as <- <-. auto.
Qed.
Lemma valid_size g : valid_ref_type g RSize = true -> has_size g.
Proof.
  induction g as [g IH] using field_ind'. destruct g; cbn; try discriminate; intros H; try constructor.
  inversion IH; subst; auto.
Qed.
Lemma valid_exists g : valid_ref_type g RExists = true -> may_be_absent g.
Proof.
  induction g as [g IH] using field_ind'. intros H.
  destruct ((0 <? c_since (f_common g)) || (c_deprecated (f_common g) <? not_deprecated))%bool eqn:V.
  { apply ma_version. apply orb_prop in V. change never with not_deprecated. destruct V; lia. }
  destruct g; cbn in *; rewrite V in H; cbn in H; try discriminate; try (constructor; fail).
  apply ma_ref. inversion IH; subst; auto.
Qed.
Lemma apply_among ms p r i j : Forall (fun c => c = "#"%char \/ c = "?"%char) p ->
  (forall k, i = Some k -> among ms r (ri_field k) (target_of k)) -> apply_prefix p i = Some j ->
  among ms (p ++ r) (ri_field j) (target_of j).
Proof.
  intros F H. revert j. induction F as [|c p C F IH]; cbn; intros j A; [apply H, A|].
  destruct (apply_prefix p i) as [[g v t]|]; [|discriminate]. destruct t; try discriminate.
  specialize (IH _ eq_refl). cbn in IH. destruct C as [->| ->]; cbn in A.
  - destruct (valid_ref_type g RSize) eqn:V; [|discriminate]. injection A as <-. cbn. apply am_size; [exact IH|]. apply valid_size, V.
  - destruct (valid_ref_type g RExists) eqn:V; [|discriminate]. injection A as <-. cbn. apply am_presence; [exact IH|]. apply valid_exists, V.
Qed.
Definition inner_ok (f : field) : Prop := forall ref i, inner_ref f ref = Ok (Some i) -> within f ref (ri_field i) (target_of i).
Lemma members_ok (ms : list field) ref i : Forall inner_ok ms ->
  (let (p, r) := ref_prefix ref in
   let (first, rest) := first_seg r in
   i <- (if is_nil first then Ok None
         else (fix go (ms : list field) : res (option ref_info) :=
                 match ms with
                 | [] => Ok None
                 | m :: ms' => if str_eqb (f_name m) first then inner_ref m (rest_or_nil rest) else go ms'
                 end) ms) ;;
   Ok (apply_prefix p i)) = Ok (Some i) -> among ms ref (ri_field i) (target_of i).
Proof.
  intros F. destruct (ref_prefix ref) as [p r] eqn:P. apply prefix_spec in P as [-> C]. destruct (first_seg r) as [first rest] eqn:S.
  apply first_seg_step in S. intros H. apply bind_Ok in H as (j & J & H). injection H as H.
  eapply apply_among; [exact C| |exact H]. intros k ->. destruct (is_nil first); [discriminate|].
  assert (X : exists m, In m ms /\ f_name m = first /\ inner_ref m (rest_or_nil rest) = Ok (Some k)).
  { clear - J. induction ms as [|m ms IH]; [discriminate|]. destruct (str_eqb (f_name m) first) eqn:E.
    - apply str_eqb_eq in E. exists m. cbn. auto.
    - destruct (IH J) as (x & A & B). exists x. cbn. auto. }
  destruct X as (m & A & B & X). rewrite Forall_forall in F. eapply am_named; [exact A|exact B|exact S|]. apply F; assumption.
Qed.
Lemma inner_within f : inner_ok f.
Proof.
  induction f as [f IH] using field_ind'. intros ref i H.
  destruct ref as [|a ref]; [cbn in H; destruct f; injection H as <-; constructor|].
  destruct f; cbn [inner_ref is_nil parts] in *.
  - destruct (assoc (a :: ref) (i_specials s)) eqn:A; [|discriminate]. injection H as <-. cbn. apply in_value. cbn. apply assoc_In in A. apply (in_map fst) in A. exact A.
  - destruct (assoc (a :: ref) (en_values s)) eqn:A; [|discriminate]. injection H as <-. cbn. apply in_value. cbn. apply assoc_In in A. apply (in_map fst) in A. exact A.
  - destruct (assoc (a :: ref) (s_bits s)) eqn:A; [|discriminate]. injection H as <-. cbn. apply in_value. cbn. apply assoc_In in A. apply (in_map fst) in A. exact A.
  - destruct (assoc (a :: ref) (f_specials s)) eqn:A; [|discriminate]. injection H as <-. cbn. apply in_value. cbn. apply assoc_In in A. apply (in_map fst) in A. exact A.
  - destruct (is_nil ms); [discriminate|]. apply in_members. cbn [f_members]. apply members_ok; [exact IH|exact H].
  - destruct (is_nil ms); [discriminate|]. apply in_members. cbn [f_members]. apply members_ok; [exact IH|exact H].
  - discriminate.
  - discriminate.
  - discriminate.
  - apply in_ref. inversion IH; subst. auto.
  - destruct own; cbn [negb] in H; [|discriminate]. destruct (first_seg (a :: ref)) as [first rest] eqn:S. apply first_seg_step in S.
    destruct (str_eqb first (f_name f)) eqn:E; [|discriminate]. apply str_eqb_eq in E. eapply in_optional; [symmetry; exact E|exact S|].
    inversion IH; subst. auto.
  - destruct (is_nil ms); [discriminate|]. apply in_members. cbn [f_members]. apply members_ok; [exact IH|exact H].
Qed.
Lemma sibling_among ms ref i : sibling_ref ms ref = Ok (Some i) -> among ms ref (ri_field i) (target_of i).
Proof.
  unfold sibling_ref. destruct (ref_prefix ref) as [p r] eqn:P. apply prefix_spec in P as [-> C]. destruct (first_seg r) as [first rest] eqn:S.
  apply first_seg_step in S. intros H. apply bind_Ok in H as (j & J & H). injection H as H.
  eapply apply_among; [exact C| |exact H]. intros k ->. destruct (is_nil first); [discriminate|].
  destruct (find_named first ms) as [m|] eqn:N; [|discriminate]. apply find_named_In in N as [A B].
  eapply am_named; [exact A|exact B|exact S|]. apply inner_within. exact J.
Qed.

(** ** comparison *)
Lemma non_ref_meant f : non_ref_kind f = f_kind (meant f).
Proof. induction f as [f IH] using field_ind'. destruct f; try reflexivity. cbn. inversion IH; subst. assumption. Qed.
Lemma unref_meant f : unref f = meant f.
Proof. reflexivity. Qed.
Lemma kind_eqb_eq a b : kind_eqb a b = true -> a = b.
Proof. destruct a, b; cbn; congruence. Qed.
Lemma comparable_sort f g : comparable_fields f g = true -> same_sort f g.
Proof.
  unfold comparable_fields, same_sort. change (unref g) with (meant g). rewrite non_ref_meant. unfold comparable_kinds. intros H. apply orb_prop in H as [H|H].
  - left. apply kind_eqb_eq, H.
  - destruct (f_kind (meant f)), (f_kind (meant g)); cbn in H; try discriminate; auto.
Qed.
Lemma number_ok e t sp v z : int_str_to_value e t sp v = Some z -> number_text e t (map fst sp) v.
Proof.
  unfold int_str_to_value, number_text. destruct (if parseIsValidName v then assoc v sp else None) as [x|] eqn:A.
  - intros _. left. destruct (parseIsValidName v); [|discriminate]. apply assoc_In in A. apply (in_map fst) in A. exact A.
  - clear A. destruct (parseIsValidRefName v) eqn:R.
    + destruct (e_num e v) as [[n big]|] eqn:E; [|discriminate]. destruct (negb big && (n <? 0) && is_unsigned t)%bool eqn:X; [discriminate|].
      intros _. right. left. exists n, big. split; [apply parseIsValidRefName_spec; exact R|]. split; [reflexivity|].
      intros N. destruct big; [left; reflexivity|]. right. assert (n <? 0 = true) by lia. rewrite H in X. cbn in X.
      unfold signed_type. destruct t; cbn in *; try discriminate; auto 10.
    + intros H. right. right. destruct (is_big t) eqn:B.
      * destruct (parseStrToUintMax v) as [n|] eqn:U; [|discriminate]. apply stoull_spec in U as (w & D & W & _). exists w. split; [exact D|]. right.
        split; [|exact W]. unfold big_type. destruct t; cbn in *; try discriminate; auto.
      * apply stoll_spec in H as [D W]. exists z. auto.
Qed.
Lemma digit_ten c : digit_val c <? 10 = true -> dec_digit c.
Proof.
  assert (H : forall c, implb (digit_val c <? 10) (memc c (T "0123456789")) = true) by (apply all_chars_b; vm_compute; reflexivity).
  intros E. specialize (H c). rewrite E in H. cbn [implb] in H. apply memc_In. exact H.
Qed.
Lemma size_decimal v : size_value_ok v = true -> decimal v.
Proof.
  unfold size_value_ok, stoll10. destruct (sign (skip_space v)) as [neg r] eqn:S. destruct (digits 10 None r) as [m|] eqn:D; [|discriminate].
  intros _. destruct (skip_space_split v) as (ws & E & W). unfold decimal.
  assert (X : exists d rest, r = d :: rest /\ dec_digit d).
  { destruct r as [|d rest]; [discriminate|]. exists d, rest. split; [reflexivity|]. cbn in D. destruct (digit_val d <? 10) eqn:F; [|discriminate]. apply digit_ten, F. }
  destruct X as (d & rest & -> & X).
  assert (Y : exists sg, skip_space v = sg ++ d :: rest /\ In sg [[]; T "-"; T "+"]).
  { unfold sign in S. destruct (skip_space v) as [|c s']; [discriminate|]. destruct (ch_eqb c "-") eqn:A.
    - apply ch_eqb_eq in A as ->. injection S as _ ->. exists (T "-"). cbn. auto.
    - destruct (ch_eqb c "+") eqn:B; [apply ch_eqb_eq in B as ->; injection S as _ ->; exists (T "+"); cbn; auto|].
      injection S as _ -> ->. exists []. cbn. auto. }
  destruct Y as (sg & Y & I). exists ws, sg, d, rest. rewrite <- Y. auto.
Qed.
Lemma value_comparable e f v : comparable_value e f v = true -> comparable_text e f v.
Proof.
  induction f as [f IH] using field_ind'. intros H.
  assert (S : c_sem (f_common f) = SemVersion \/ c_sem (f_common f) = SemLength \/ ~ (c_sem (f_common f) = SemVersion \/ c_sem (f_common f) = SemLength)).
  { destruct (c_sem (f_common f)); auto; right; right; intros [|]; discriminate. }
  assert (N : c_sem (f_common f) = SemVersion \/ c_sem (f_common f) = SemLength -> comparable_text e f v).
  { intros X. assert (Y : match parseStrToIntMax v with Some _ => true | None => false end = true).
    { destruct f; cbn in *; unfold f_sem in H; cbn in H; destruct X as [X|X]; rewrite X in H; exact H. }
    destruct (parseStrToIntMax v) as [z|] eqn:Z; [|discriminate]. apply stoll_spec in Z as [D _]. eapply ct_number; eassumption. }
  destruct S as [S|[S|S]]; [auto|auto|]. clear N.
  destruct f; cbn in *; unfold f_sem in H; cbn in H.
  - apply ct_int. unfold int_comparable in H. destruct (c_sem c); try (exfalso; apply S; auto; fail);
      (destruct (int_str_to_value e (i_type s) (i_specials s) v) eqn:X; [|discriminate]; eapply number_ok; exact X).
  - apply ct_enum. unfold enum_comparable in H. destruct (c_sem c); try (exfalso; apply S; auto; fail);
      (destruct (int_str_to_value e (en_type s) (en_values s) v) eqn:X; [|discriminate]; eapply number_ok; exact X).
  - assert (X : set_comparable e v = true) by (destruct (c_sem c); try (exfalso; apply S; auto; fail); exact H).
    unfold set_comparable in X. destruct (parseIsValidRefName v).
    + destruct (e_num e v) as [[z b]|] eqn:E; [|discriminate]. eapply ct_set_ref; [exact E|]. destruct b; [left; reflexivity|right]. cbn in X. lia.
    + destruct (parseStrToIntMax v) as [z|] eqn:E; [|discriminate]. apply stoll_spec in E as [D _]. eapply ct_set; [exact D|]. lia.
  - assert (X : float_comparable e s v = true) by (destruct (c_sem c); try (exfalso; apply S; auto; fail); exact H).
    unfold float_comparable in X. destruct (float_str_to_value e (f_specials s) v true) eqn:E; [|discriminate]. eapply ct_float. exact E.
  - exfalso. destruct (c_sem c); try (apply S; auto; fail); discriminate.
  - exfalso. destruct (c_sem c); try (apply S; auto; fail); discriminate.
  - assert (X : string_comparable e v = true) by (destruct (c_sem c); try (exfalso; apply S; auto; fail); exact H).
    unfold string_comparable in X. destruct v as [|x v]; [apply ct_string; discriminate|]. destruct (ch_eqb x c_extref) eqn:E.
    + apply ch_eqb_eq in E as ->. destruct (e_find e v) as [g|] eqn:F; [|discriminate]. apply kind_eqb_eq in X. eapply ct_string_ref; eassumption.
    + apply ct_string. intros r [= -> _]. cbn in E. discriminate.
  - exfalso. destruct (c_sem c); try (apply S; auto; fail); discriminate.
  - exfalso. destruct (c_sem c); try (apply S; auto; fail); discriminate.
  - apply ct_ref. inversion IH; subst. destruct (c_sem c); try (exfalso; apply S; auto; fail); auto.
  - exfalso. destruct (c_sem c); try (apply S; auto; fail); discriminate.
  - exfalso. destruct (c_sem c); try (apply S; auto; fail); discriminate.
Qed.

(** ** conditions *)
Lemma is_ref_type_eq t i : is_ref_type t i = true -> ri_type i = t.
Proof. unfold is_ref_type. destruct t, (ri_type i); congruence. Qed.
Lemma iface_in e text l i : e_iface e text = Ok l -> In i l -> in_interfaces e text (ri_field i) (target_of i).
Proof. intros E I. exists l, i. split; [exact E|]. split; [exact I|]. split; [reflexivity|]. unfold target_of. destruct (ri_type i); reflexivity. Qed.
Lemma sib_operand e sibs text i : sibling_ref sibs text = Ok (Some i) -> operand_is e sibs ("$"%char :: text) (ri_field i) (target_of i).
Proof. intros H. exists text. left. split; [reflexivity|]. apply sibling_among, H. Qed.
Lemma if_operand e sibs text l i : e_iface e text = Ok l -> In i l -> operand_is e sibs ("%"%char :: text) (ri_field i) (target_of i).
Proof. intros H I. exists text. right. split; [reflexivity|]. eapply iface_in; eassumption. Qed.
Lemma supports_since e v : supports e v = true -> since_dsl e v.
Proof. unfold supports, since_dsl. intros H. apply orb_prop in H as [H|H]; lia. Qed.
Lemma as_target i t : ri_type i = t -> target_of i = match t with RField => TheField | RInner => TheValue (ri_value i) | RSize => TheSize | RExists => ThePresence end.
Proof. intros <-. reflexivity. Qed.

(** the operands of a condition made from a text start with $ or % *)
Fixpoint signed_cond (c : cond) : Prop :=
  match c with
  | CExpr l _ r => match l with [] => operand r | _ => operand l end
  | CList _ cs => (fix go (cs : list cond) : Prop := match cs with [] => True | c :: cs' => signed_cond c /\ go cs' end) cs
  end.
Section CondInd.
  Variable P : cond -> Prop.
  Hypothesis Hx : forall l op r, P (CExpr l op r).
  Hypothesis Hl : forall b cs, Forall P cs -> P (CList b cs).
  Fixpoint cond_ind' (c : cond) : P c :=
    match c with
    | CExpr l op r => Hx l op r
    | CList b cs => Hl b cs ((fix go (cs : list cond) : Forall P cs := match cs with [] => Forall_nil P | c :: cs' => Forall_cons c (cond_ind' c) (go cs') end) cs)
    end.
End CondInd.
Lemma verify_grounded e sibs c : signed_cond c -> cond_verify e sibs c = Ok tt -> grounded e sibs c.
Proof.
  induction c as [l op r|b cs IH] using cond_ind'; intros Sg H.
  - cbn in H, Sg. destruct l as [|d l].
    + destruct Sg as (x & t & -> & Sg). cbn in H. destruct (ch_eqb x c_sibling) eqn:E.
      * apply ch_eqb_eq in E as ->. apply bind_Ok in H as (j & J & H). destruct j as [i|]; [|discriminate].
        pose proof (sib_operand e _ _ _ J) as O. destruct (ri_type i) eqn:Ti; try discriminate; rewrite (as_target _ _ Ti) in O.
        -- eapply gr_bit. exact O.
        -- eapply gr_presence; [exact O|]. apply guard_Ok in H. apply supports_since, H.
      * destruct Sg as [->| ->]; [discriminate E|]. apply bind_Ok in H as (ls & J & H). apply guard_Ok in H. apply existsb_exists in H as (i & I & H).
        apply andb_prop in H as [H _]. apply (is_ref_type_eq RInner) in H. pose proof (if_operand e sibs _ _ _ J I) as O. rewrite (as_target _ _ H) in O.
        eapply gr_bit. exact O.
    + destruct Sg as (x & t & Ex & Sg). injection Ex as -> ->. destruct (ch_eqb x c_sibling) eqn:E.
      * apply ch_eqb_eq in E as ->. unfold verify_sibling_comparison in H. cbn [tl] in H. apply bind_Ok in H as (j & J & H). destruct j as [i|]; [|discriminate].
        pose proof (sib_operand e _ _ _ J) as O. destruct (ri_type i) eqn:Ti; try discriminate; rewrite (as_target _ _ Ti) in O.
        -- assert (V : comparable_value e (ri_field i) r = true -> (forall u, r <> "$"%char :: u /\ r <> "%"%char :: u) -> grounded e sibs (CExpr ("$"%char :: t) op r)).
           { intros V N. eapply gr_value; [exact O|exact N|]. apply value_comparable, V. }
           destruct r as [|y u]; [apply guard_Ok in H; apply V; [exact H|split; discriminate]|].
           destruct (ch_eqb y c_sibling) eqn:E1.
           { apply ch_eqb_eq in E1 as ->. apply bind_Ok in H as (k & K & H). destruct k as [k|]; [|discriminate]. apply guard_Ok in H.
             apply andb_prop in H as [H1 H2]. apply is_ref_type_eq in H1. pose proof (sib_operand e _ _ _ K) as O2. rewrite (as_target _ _ H1) in O2.
             eapply gr_fields; [exact O|exact O2|]. apply comparable_sort, H2. }
           destruct (ch_eqb y c_interface) eqn:E2.
           { apply ch_eqb_eq in E2 as ->. apply bind_Ok in H as (ls & K & H). apply guard_Ok in H. apply existsb_exists in H as (k & I & H).
             apply andb_prop in H as [H1 H2]. apply is_ref_type_eq in H1. pose proof (if_operand e sibs _ _ _ K I) as O2. rewrite (as_target _ _ H1) in O2.
             eapply gr_fields; [exact O|exact O2|]. apply comparable_sort, H2. }
           apply guard_Ok in H. apply V; [exact H|]. intros w. split; intros [= -> _]; [discriminate E1|discriminate E2].
        -- apply bind_Ok in H as (u0 & H1 & H2). apply guard_Ok in H1, H2. eapply gr_size; [exact O|apply supports_since, H1|apply size_decimal, H2].
      * destruct Sg as [->| ->]; [discriminate E|]. unfold verify_iface_comparison in H. cbn [tl] in H. apply bind_Ok in H as (ls & J & H).
        destruct (existsb (is_ref_type RSize) ls) eqn:Z.
        { apply existsb_exists in Z as (i & I & Z). apply is_ref_type_eq in Z. pose proof (if_operand e sibs _ _ _ J I) as O. rewrite (as_target _ _ Z) in O.
          apply bind_Ok in H as (u0 & H1 & H2). apply guard_Ok in H1, H2. eapply gr_size; [exact O|apply supports_since, H1|apply size_decimal, H2]. }
        apply bind_Ok in H as (u0 & _ & H).
        assert (V : existsb (fun li => comparable_value e (ri_field li) r) (filter (is_ref_type RField) ls) = true ->
                    (forall u, r <> "$"%char :: u /\ r <> "%"%char :: u) -> grounded e sibs (CExpr ("%"%char :: t) op r)).
        { intros V N. apply existsb_exists in V as (i & I & V). apply filter_In in I as [I F]. apply is_ref_type_eq in F.
          pose proof (if_operand e sibs _ _ _ J I) as O. rewrite (as_target _ _ F) in O. eapply gr_value; [exact O|exact N|]. apply value_comparable, V. }
        destruct r as [|y u]; [apply guard_Ok in H; apply V; [exact H|split; discriminate]|].
        destruct (ch_eqb y c_sibling) eqn:E1.
        { apply ch_eqb_eq in E1 as ->. apply bind_Ok in H as (k & K & H). destruct k as [k|]; [|discriminate]. apply guard_Ok in H.
          apply andb_prop in H as [H1 H2]. apply is_ref_type_eq in H1. pose proof (sib_operand e _ _ _ K) as O2. rewrite (as_target _ _ H1) in O2.
          apply existsb_exists in H2 as (i & I & H2). apply filter_In in I as [I F]. apply is_ref_type_eq in F.
          pose proof (if_operand e sibs _ _ _ J I) as O. rewrite (as_target _ _ F) in O.
          eapply gr_fields; [exact O|exact O2|]. apply comparable_sort, H2. }
        destruct (ch_eqb y c_interface) eqn:E2.
        { apply ch_eqb_eq in E2 as ->. apply bind_Ok in H as (ks & K & H). apply guard_Ok in H. apply existsb_exists in H as (i & I & H).
          apply existsb_exists in H as (k & I2 & H). apply andb_prop in H as [H1 H2]. apply is_ref_type_eq in H1.
          apply filter_In in I as [I F]. apply is_ref_type_eq in F.
          pose proof (if_operand e sibs _ _ _ J I) as O. rewrite (as_target _ _ F) in O.
          pose proof (if_operand e sibs _ _ _ K I2) as O2. rewrite (as_target _ _ H1) in O2.
          eapply gr_fields; [exact O|exact O2|]. apply comparable_sort, H2. }
        apply guard_Ok in H. apply V; [exact H|]. intros w. split; intros [= -> _]; [discriminate E1|discriminate E2].
  - apply gr_list. cbn in Sg, H. revert Sg H. induction IH as [|c cs Hc _ IHl]; intros Sg H; [constructor|].
    destruct Sg as [S1 S2]. apply bind_Ok in H as ([] & H1 & H2). constructor; [apply Hc; assumption|]. apply IHl; assumption.
Qed.

(** ** conditions come from texts *)
Lemma wf_signed c : well_formed_cond c -> signed_cond c.
Proof.
  induction c as [l op r|b cs IH] using cond_ind'; intros W.
  - inversion W; subst; cbn; [|assumption]. destruct l; [|assumption]. match goal with X : operand [] |- _ => destruct X as (a & t & E & _); discriminate E end.
  - inversion W; subst. cbn. match goal with X : Forall well_formed_cond cs, Y : (2 <= _)%nat |- _ => clear W Y; revert X end.
    induction IH as [|c cs Hc _ IHl]; intros F; [exact I|]. inversion F; subst. split; [auto|]. apply IHl. assumption.
Qed.
Definition opt_wf (o : option cond) : Prop := forall c, o = Some c -> well_formed_cond c.
Definition field_cond (f : field) : option cond :=
  match f with FOptional _ _ _ _ d => d | FBitfield _ _ _ v | FBundle _ _ _ v => v | _ => None end.
Definition cond_wf (f : field) : Prop := opt_wf (field_cond f).
Lemma update_opt_cond_wf e p n d0 d : opt_wf d0 -> update_opt_cond e p n d0 = Ok d -> opt_wf d.
Proof.
  unfold update_opt_cond. intros W H. apply bind_Ok in H as (u & _ & H). apply bind_Ok in H as (c & Hc & H).
  assert (Wc : opt_wf c).
  { destruct (find_prop p (L "cond")); [|injection Hc as <-; exact W]. apply bind_Ok in Hc as (c' & Hc & E). injection E as <-.
    intros c0 [= <-]. eapply cond_expr_wf. exact Hc. }
  destruct (parseGetChildrenOf n [L "and"; L "or"] false) as [|m [|]]; [injection H as <-; exact Wc| |discriminate].
  apply bind_Ok in H as (u' & _ & H). apply bind_Ok in H as (c' & Hl & H). injection H as <-. intros c0 [= <-]. eapply cond_list_wf. exact Hl.
Qed.
Lemma no_iface c : has_iface_ref c = false -> forall o t, mentions c o -> o <> "%"%char :: t.
Proof.
  induction c as [l op r|b cs IH] using cond_ind'; cbn; intros H o t M.
  - apply orb_false_iff in H as [A B]. inversion M; subst; intros ->; [cbn in A|cbn in B]; discriminate.
  - inversion M as [| |? ? c ? I1 M1]; subst. rewrite Forall_forall in IH. apply (IH _ I1); [|exact M1].
    clear - H I1. induction cs as [|a cs IHc]; [destruct I1|]. cbn in H. apply orb_false_iff in H as [A B]. destruct I1 as [->|I1]; auto.
Qed.

(** invariant of accepted fields *)
Definition conds_ok (f : field) : Prop := cond_wf f /\ forall d, f_valid_cond f = Some d -> has_iface_ref d = false.
Lemma valid_is_cond f : forall d, f_valid_cond f = Some d -> field_cond f = Some d.
Proof. destruct f; cbn; try discriminate; auto. Qed.
(** the condition a composite field ends up with: the one it had, or one verified against its members *)
Lemma update_valid_cond_spec e p n k ms cur vc :
  (forall s g, e_find e s = Some g -> conds_ok g) -> update_valid_cond e p n k ms cur = Ok vc ->
  vc = cur \/ exists d, vc = Some d /\ well_formed_cond d /\ has_iface_ref d = false /\ cond_verify e ms d = Ok tt.
Proof.
  intros He H. unfold update_valid_cond in H. apply bind_Ok in H as (v1 & H1 & H). apply bind_Ok in H as (v2 & H2 & H3).
  assert (A : v1 = cur \/ exists d, v1 = Some d /\ well_formed_cond d /\ has_iface_ref d = false /\ cond_verify e ms d = Ok tt).
  { unfold copy_valid_cond in H1. apply bind_Ok in H1 as (u & _ & H1).
    destruct (is_nil (get_prop p (L "copyValidCondFrom")) || negb (prop_supported e (L "copyValidCondFrom")))%bool; [injection H1 as <-; auto|].
    apply bind_Ok in H1 as (f & Hf & H1). apply of_opt_Ok in Hf. apply bind_Ok in H1 as (u' & _ & H1). destruct cur; [discriminate|].
    destruct (f_valid_cond f) as [d|] eqn:E; [|injection H1 as <-; auto]. apply bind_Ok in H1 as ([] & V & H1). injection H1 as <-. right. exists d.
    destruct (He _ _ Hf) as [W N]. split; [reflexivity|]. split; [apply W, valid_is_cond, E|]. auto. }
  assert (B : v2 = v1 \/ exists d, v2 = Some d /\ well_formed_cond d /\ has_iface_ref d = false /\ cond_verify e ms d = Ok tt).
  { unfold single_valid_cond in H2. apply bind_Ok in H2 as (u & _ & H2). destruct (find_prop p (L "validCond")); [|injection H2 as <-; auto].
    destruct (negb (valid_cond_in_composite_supported e)); [injection H2 as <-; auto|].
    apply bind_Ok in H2 as (d & D & H2). apply bind_Ok in H2 as (u' & G & H2). apply bind_Ok in H2 as ([] & V & H2). injection H2 as <-.
    right. exists d. apply guard_Ok in G. apply negb_true_iff in G. split; [reflexivity|]. split; [eapply cond_expr_wf; exact D|]. auto. }
  unfold multi_valid_cond in H3. destruct (parseGetChildrenOf n [L "validCond"] true) as [|m more].
  { injection H3 as <-. destruct B as [-> | B]; auto. }
  destruct (negb (valid_cond_in_composite_supported e)); [injection H3 as <-; destruct B as [-> | B]; auto|].
  apply bind_Ok in H3 as (u & _ & H3). destruct (parseGetChildrenOf m [L "and"; L "or"] false) as [|d0 [|]]; try discriminate.
  apply bind_Ok in H3 as (u0 & _ & H3). apply bind_Ok in H3 as (d & D & H3). apply bind_Ok in H3 as (u' & G & H3). apply bind_Ok in H3 as ([] & V & H3).
  injection H3 as <-. right. exists d. apply guard_Ok in G. apply negb_true_iff in G. split; [reflexivity|]. split; [eapply cond_list_wf; exact D|]. auto.
Qed.
Lemma parse_conds e : env_num_ok e -> (forall s g, e_find e s = Some g -> all conds_ok g) ->
  forall fuel x n f, field_parse fuel e x n = Ok f -> all conds_ok f.
Proof.
  intros Ne Fe. apply (field_parse_all conds_ok); [| | |exact Ne|exact Fe]; clear e Ne Fe.
  - intros g H. apply all_here in H. unfold conds_ok, cond_wf, opt_wf in *. destruct g; cbn in *; auto; split; intros; discriminate.
  - intros v g H. apply all_here in H. destruct g; exact H.
  - intros fuel e x n k p c0 old repl c g He Hf Hrec Hk Hp Hr Hold Hrep Hrp Hc Hkp Hv Hparts.
    pose proof (reuse_old_ok _ _ _ _ _ _ Hr) as Ok_.
    assert (K : f_kind g = k) by (eapply kind_parse_common; eauto).
    assert (Hf' : forall s g, e_find e s = Some g -> conds_ok g) by (intros s h X; apply all_here, (Hf _ _ X)).
    assert (Ho : forall d, match old with Some o => f_valid_cond o | None => None end = Some d -> well_formed_cond d /\ has_iface_ref d = false).
    { intros d E. destruct old as [o|]; [|discriminate]. destruct (all_here _ _ (Hold o eq_refl)) as [W N]. split; [apply W, valid_is_cond, E|auto]. }
    assert (Hv' : forall ms vc, update_valid_cond e p n k ms (match old with Some o => f_valid_cond o | None => None end) = Ok vc ->
       (forall d, vc = Some d -> well_formed_cond d /\ has_iface_ref d = false)).
    { intros ms vc U d ->. apply update_valid_cond_spec in U as [U|(d' & E & W & N & _)]; [apply Ho; auto|injection E as <-; auto|exact Hf']. }
    unfold conds_ok, cond_wf, opt_wf. destruct k; try (destruct g; try discriminate K; cbn; split; discriminate).
    + apply bitfield_inv in Hkp as (en & ms & vc & ms0 & -> & _ & _ & U); [|exact Ok_]. cbn. specialize (Hv' _ _ U). split; intros d E; apply Hv' in E; tauto.
    + apply bundle_inv in Hkp as (ms & als & vc & ms0 & als0 & -> & _ & _ & _ & _ & _ & U); [|exact Ok_]. cbn. specialize (Hv' _ _ U). split; intros d E; apply Hv' in E; tauto.
    + apply optional_inv in Hkp as (s & o & g' & d & d0 & -> & U & E); [|exact Ok_]. cbn. split; [|discriminate]. eapply update_opt_cond_wf; [|exact U].
      intros d' ->. destruct old as [o'|]; [|discriminate]. destruct (all_here _ _ (Hold o' eq_refl)) as [W _]. apply W. destruct o'; try discriminate. cbn. auto.
Qed.
Lemma accepted_conds f : accepted f -> all conds_ok f.
Proof. induction 1 as [e x n f He Hf IH H]. eapply parse_conds; eauto. Qed.

(** ** siblings *)
Lemma find_sibling_leads fuel : forall ms name g, find_sibling fuel ms name = Some g -> leads ms name g.
Proof.
  induction fuel as [|fuel IH]; intros ms name g H; [discriminate|]. cbn [find_sibling] in H. unfold first_seg in H.
  destruct (split_at "." name) as [[a b]|] eqn:E; cbv beta iota zeta in H.
  - apply split_at_spec in E as [-> _]. destruct (find_named a ms) as [m|] eqn:F; [|discriminate]. apply find_named_In in F as [I <-].
    apply ld_down; [exact I|]. apply IH, H.
  - destruct (find_named name ms) as [m|] eqn:F; [|discriminate]. apply find_named_In in F as [I <-]. injection H as <-. apply ld_here, I.
Qed.
Lemma detached_spec sibs path : detached_ok sibs path = true -> path = [] \/ exists g, leads sibs path g /\ counts g.
Proof.
  unfold detached_ok. intros H. apply orb_prop in H as [H|H]; [destruct path; [auto|discriminate]|]. right.
  destruct (find_sibling (S (length path)) sibs path) as [g|] eqn:F; [|discriminate]. exists g. split; [eapply find_sibling_leads; exact F|].
  unfold counts. apply orb_prop in H as [H|H].
  - left. rewrite <- non_ref_meant. apply kind_eqb_eq, H.
  - right. unfold is_length_sem, f_sem in H. destruct (c_sem (f_common g)); try discriminate. reflexivity.
Qed.
Lemma verify_sound e sibs f : cond_wf f -> verify_siblings e sibs f = Ok tt -> sound_member e sibs f.
Proof.
  intros W H. split.
  - intros c s o g d ->. cbn in H. apply verify_grounded; [|exact H]. apply wf_signed, W. reflexivity.
  - intros path I. destruct f; cbn in I, H; try contradiction; apply guard_Ok in H.
    + destruct I as [<-|[]]. apply detached_spec, H.
    + destruct I as [<-|[]]. apply detached_spec, H.
    + apply andb_prop in H as [H H3]. apply andb_prop in H as [H1 H2]. destruct I as [<-|[<-|[<-|[]]]]; apply detached_spec; assumption.
Qed.
Lemma sound_snoc e ms m : sound_members e ms -> sound_member e ms m -> sound_members e (ms ++ [m]).
Proof.
  intros H1 H2 a y b E. destruct b as [|z b] using rev_ind.
  - apply app_inj_tail in E as [-> ->]. exact H2.
  - clear IHb. rewrite app_comm_cons, app_assoc in E. apply app_inj_tail in E as [E _]. eapply H1. exact E.
Qed.
Lemma sound_nil e : sound_members e [].
Proof. intros a y b E. destruct a; discriminate. Qed.

Lemma add_sound e (rec : node -> res field) ns ms ms' : (forall m f, rec m = Ok f -> cond_wf f) ->
  foldM (fun ms m => f <- rec m ;; _ <- verify_siblings e ms f ;; Ok (ms ++ [f])) ns ms = Ok ms' ->
  sound_members e ms -> sound_members e ms'.
Proof.
  intros Hw H Hm. revert H. apply (foldM_inv _ (sound_members e)); [|exact Hm].
  intros a b a' Ha X. apply bind_Ok in X as (f & Hr & X). apply bind_Ok in X as ([] & Hv & X). injection X as <-.
  apply sound_snoc; [exact Ha|]. apply verify_sound; [eapply Hw; exact Hr|exact Hv].
Qed.
Lemma own_sound e : env_num_ok e -> (forall s g, e_find e s = Some g -> accepted g) ->
  forall fuel x n f, without_reuse n -> field_parse fuel e x n = Ok f -> forall g, inside g f -> sound_field e g.
Proof.
  intros Ne Fe. assert (Fe' : forall s g, e_find e s = Some g -> all conds_ok g) by (intros s g X; apply accepted_conds, (Fe _ _ X)).
  assert (Fe2 : forall s g, e_find e s = Some g -> conds_ok g) by (intros s g X; apply all_here, (Fe' _ _ X)).
  induction fuel as [|fuel IH]; intros x n f W H g Hg; [discriminate|].
  apply field_parse_inv in H as (fuel' & k & p & c0 & old & repl & c & E & Hk & Hp & Hr & Hrep & Hc & Hkp & Hv).
  injection E as <-. rewrite (no_reuse_old _ _ _ _ _ _ _ W Hp Hr) in Hkp.
  inversion Hg as [|g' h f' Hh Hin]; subst.
  - assert (K : f_kind f = k) by (eapply kind_parse_common; eauto).
    assert (Vc : forall ms vc, update_valid_cond e p n k ms None = Ok vc -> forall d, vc = Some d -> grounded e ms d /\ (forall o t, mentions d o -> o <> "%"%char :: t)).
    { intros ms vc U d ->. apply update_valid_cond_spec in U as [U|(d' & X & Wd & N & V)]; [discriminate| |exact Fe2]. injection X as <-.
      split; [apply verify_grounded; [apply wf_signed, Wd|exact V]|apply no_iface, N]. }
    destruct k; try (destruct f; try discriminate K; exact I).
    + apply bitfield_inv in Hkp as (en & ms & vc & ms0 & -> & _ & _ & U); [|intros o; discriminate]. cbn. eapply Vc. exact U.
    + apply bundle_inv in Hkp as (ms & als & vc & ms0 & als0 & -> & R & G & _ & _ & _ & U); [|intros o; discriminate]. cbn.
      split; [|eapply Vc; exact U]. apply replace_nothing in R as ->. unfold group_members in G. cbn [kept_members] in G.
      apply bind_Ok in G as (ns & Hn & G). apply bind_Ok in G as (ms1 & H1 & G). apply bind_Ok in G as (u & _ & G). injection G as <-.
      destruct ns as [ns|]; [|apply bind_Ok in H1 as (u' & Gd & _); apply guard_Ok in Gd; discriminate Gd].
      apply bind_Ok in H1 as (ms2 & H1 & H2). apply bind_Ok in H2 as (u' & _ & H2). injection H2 as <-.
      eapply add_sound; [|exact H1|apply sound_nil]. intros m f0 R. cbv beta in R. apply (parse_conds _ Ne Fe') in R. apply all_here in R as [Q _]. exact Q.
  - assert (Q : Forall (fun h => forall g, inside g h -> sound_field e g) (own_parts f)).
    { eapply kind_parse_own; [|exact Hkp]. intros m g' B R. eapply IH; [eapply without_reuse_below; eassumption|exact R]. }
    rewrite Forall_forall in Q. eapply Q; eassumption.
Qed.
