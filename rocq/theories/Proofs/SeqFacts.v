(** Generated code of string, data and list fields. *)
From Coq Require Import Lia Sorted ZifyBool ZifyNat.
From Verif.Model Require Import Base Common Xml Units Field FieldCommon IntField EnumField SetField FloatField OptCond Composite GenUtil GenComms CommsInt CommsSeq.
From Verif.Spec Require Import Texts Ints Versions IntSpec XmlSpec FieldSpec HeaderSpec DslSpec AttrSpec GenSpec CppSpec TokenSpec SeqCode.
From Verif.Proofs Require Import BaseFacts CommonFacts XmlFacts RangeFacts IntInv FieldInv FieldFacts OwnFacts SingleFacts TreeFacts AttrFacts AttrFacts2 GenFacts TemplateFacts WrapFacts CommsIntFacts CommsOptFacts CondTextFacts TokenFacts.
From Verif.Props Require Import PGen PTemplate.
Local Open Scope string_scope. Local Open Scope Z_scope. Local Open Scope list_scope.

(** ** Accepted fields *)
Definition values_ok {A} (rank : A -> Z) (l : list (valid_value (list A))) : Prop :=
  StronglySorted (fun v w => lex_le rank (vv_value v) (vv_value w)) l /\ Forall (fun v => vv_since v < vv_depr v) l.
Definition seq_ok (g : field) : Prop :=
  match g with
  | FString _ s _ => values_ok char_rank (st_valid s)
  | FData _ s _ => values_ok (fun b => b) (d_valid s)
  | _ => True
  end.
Lemma values_ok_step {A} e n p (val : str -> option (list A)) lt (rank : A -> Z) since depr d0 v0 d v :
  (forall a b, lt b a = false <-> lex_le rank a b) -> since < depr -> Forall (fun v => vv_since v < vv_depr v) v0 ->
  update_values e p n val lt since depr d0 v0 = Ok (d, v) -> values_ok rank v.
Proof.
  intros order S F H. unfold update_values in H. apply bind_Ok in H as (u1 & _ & H). apply bind_Ok in H as (d1 & _ & H). apply bind_Ok in H as (u2 & _ & H).
  apply bind_Ok in H as ([d2 v2] & H2 & H). apply bind_Ok in H as (a & Ha & H). apply bind_Ok in H as (cs & Hc & H). apply Ok_inj, pair_equal_spec in H as [_ <-].
  assert (F2 : Forall (fun v => vv_since v < vv_depr v) v2).
  { destruct (find_prop p (L "defaultValidValue")) as [w|]; [|apply Ok_inj, pair_equal_spec in H2 as [_ <-]; exact F].
    destruct (negb (valid_value_in_string_supported e)); [apply Ok_inj, pair_equal_spec in H2 as [_ <-]; exact F|].
    apply bind_Ok in H2 as (z & _ & H2). apply Ok_inj, pair_equal_spec in H2 as [_ <-]. apply Forall_app. split; [exact F|]. constructor; [exact S|constructor]. }
  assert (Fa : Forall (fun v => vv_since v < vv_depr v) a).
  { destruct (find_prop (parseNodeProps n) (L "validValue")); [|apply Ok_inj in Ha; subst a; constructor].
    destruct (negb (valid_value_in_string_supported e)); [apply Ok_inj in Ha; subst a; constructor|].
    apply bind_Ok in Ha as (z & _ & Ha). apply Ok_inj in Ha. subst a. constructor; [exact S|constructor]. }
  assert (Fc : Forall (fun v => vv_since v < vv_depr v) (concat cs)).
  { apply Forall_concat. apply Forall_forall. intros l I. destruct (mapM_In _ _ _ _ Hc I) as (ch & _ & E). cbn beta in E.
    apply bind_Ok in E as (t & _ & E). destruct (negb (valid_value_in_string_supported e)); [apply Ok_inj in E; subst l; constructor|].
    apply bind_Ok in E as (z & _ & E). apply bind_Ok in E as ([sv dv] & Ev & E). apply Ok_inj in E. subst l. constructor; [|constructor]. cbn [vv_since vv_depr].
    unfold parseGetAndCheckVersionsNode in Ev. apply bind_Ok in Ev as (q & _ & Ev). apply versions_ok in Ev. lia. }
  split; [|apply (sort_Forall (fun v w => lt (vv_value v) (vv_value w)) _); apply Forall_app; split; [exact F2|apply Forall_app; split; [exact Fa|exact Fc]]].
  eapply (SS_impl _ _ (fun _ => True)); [|apply Forall_forall; auto|apply (sort_sorted (fun v w => lt (vv_value v) (vv_value w)) (fun _ => True))].
  - intros v1 w _ _ X. apply order. exact X.
  - intros v1 w _ _ X. apply order. destruct (lex_le_total rank (vv_value v1) (vv_value w)) as [Y|Y]; [exact Y|]. apply order in Y. congruence.
  - intros u v1 w _ _ _ X Y. apply order. apply order in X, Y. eapply lex_le_trans; eassumption.
  - apply Forall_forall; auto.
Qed.
Lemma common_order e x p c0 c : update_common e x p c0 = Ok c -> c_since c < c_deprecated c.
Proof.
  intros H. apply update_common_versions in H as (r & H & _). unfold update_versions in H.
  do 3 (apply bind_Ok in H as (? & _ & H)). apply bind_Ok in H as ([s d] & V & H). apply bind_Ok in H as (r' & _ & H). apply Ok_inj in H.
  assert (O : s < d) by (destruct (x_parent x); apply versions_ok in V; lia).
  assert (N : 0 < not_deprecated) by reflexivity.
  destruct (x_parent x); apply pair_equal_spec in H as [H _]; apply pair_equal_spec in H as [<- <-]; assumption.
Qed.
Lemma string_ok rec e x xs p n c old f : c_since c < c_deprecated c -> (forall s q, old = Some (s, q) -> values_ok char_rank (st_valid s)) ->
  string_parse rec e x xs p n c old = Ok f -> seq_ok f.
Proof.
  intros C Ho H. unfold string_parse in H.
  assert (E0 : exists s0 pre0, match old with Some o => o | None => (mkString [] [] 0 [] [] false, None) end = (s0, pre0) /\ Forall (fun v => vv_since v < vv_depr v) (st_valid s0)).
  { destruct old as [[s0 pre0]|]; [exists s0, pre0; split; [reflexivity|exact (proj2 (Ho _ _ eq_refl))]|]. do 2 eexists. split; [reflexivity|constructor]. }
  destruct E0 as (s0 & pre0 & E & F). rewrite E in H. clear E Ho.
  apply bind_Ok in H as (enc & H1 & H). apply bind_Ok in H as (len & H2 & H). apply bind_Ok in H as (pr & H3 & H). apply bind_Ok in H as (u' & H4 & H).
  apply bind_Ok in H as (zero & H5 & H). apply bind_Ok in H as ([d vs] & H6 & H). apply Ok_inj in H. subst f. cbn [seq_ok st_valid].
  exact (values_ok_step _ _ _ _ _ _ _ _ _ _ _ _ text_order C F H6).
Qed.
Lemma data_ok rec e x xs p n c old f : c_since c < c_deprecated c -> (forall s q, old = Some (s, q) -> values_ok (fun b => b) (d_valid s)) ->
  data_parse rec e x xs p n c old = Ok f -> seq_ok f.
Proof.
  intros C Ho H. unfold data_parse in H.
  assert (E0 : exists s0 pre0, match old with Some o => o | None => (mkData [] 0 [] [], None) end = (s0, pre0) /\ Forall (fun v => vv_since v < vv_depr v) (d_valid s0)).
  { destruct old as [[s0 pre0]|]; [exists s0, pre0; split; [reflexivity|exact (proj2 (Ho _ _ eq_refl))]|]. do 2 eexists. split; [reflexivity|constructor]. }
  destruct E0 as (s0 & pre0 & E & F). rewrite E in H. clear E Ho.
  apply bind_Ok in H as (len & H2 & H). apply bind_Ok in H as (pr & H3 & H). apply bind_Ok in H as (u' & H4 & H). apply bind_Ok in H as ([d vs] & H6 & H). apply Ok_inj in H. subst f.
  cbn [seq_ok d_valid]. exact (values_ok_step _ _ _ _ _ _ _ _ _ _ _ _ bytes_order C F H6).
Qed.
Lemma accepted_seq f : accepted f -> all seq_ok f.
Proof.
  apply accepted_all.
  { intros g H. apply all_here in H. destruct g; exact H || exact I. }
  { intros v g H. apply all_here in H. destruct g; exact H. }
  intros fuel e x n k p c0 old repl c g He Hf Hrec Hk Hp Hr Hold Hrep Hrp Hc Hkp Hv Hparts.
  assert (Ho : forall g, old = Some g -> seq_ok g) by (intros o E; exact (all_here _ _ (Hold o E))). clear Hf Hold Hrec. apply common_order in Hc.
  pose proof Hkp as F. apply kind_parse_common in F as (F & _). destruct k; try (destruct g; try exact I; discriminate F).
  - unfold kind_parse in Hkp. apply bind_Ok in Hkp as (u & _ & H). eapply string_ok; [exact Hc| |exact H].
    intros s q E. destruct old as [o|]; [|discriminate]. specialize (Ho _ eq_refl). destruct o; try discriminate E. injection E as <- <-. exact Ho.
  - unfold kind_parse in Hkp. apply bind_Ok in Hkp as (u & _ & H). eapply data_ok; [exact Hc| |exact H].
    intros s q E. destruct old as [o|]; [|discriminate]. specialize (Ho _ eq_refl). destruct o; try discriminate E. injection E as <- <-. exact Ho.
Qed.

(** ** Tables *)
Lemma lex_antisym {A} (rank : A -> Z) (inj : forall a b, rank a = rank b -> a = b) a b : lex_le rank a b -> lex_le rank b a -> a = b.
Proof.
  intros H. induction H as [l|a b l r H|a b l r H H2 IH]; intros G.
  - inversion G. reflexivity.
  - inversion G; subst; lia.
  - f_equal; [auto|]. apply IH. inversion G; subst; [lia|assumption].
Qed.
Lemma char_rank_inj a b : char_rank a = char_rank b -> a = b.
Proof. unfold char_rank. intros H. apply N2Z.inj in H. rewrite <- (ascii_N_embedding a), <- (ascii_N_embedding b), H. reflexivity. Qed.
Section Table.
Context {A : Type}.
Variables (rank : A -> Z) (lt : list A -> list A -> bool).
Hypothesis inj : forall a b, rank a = rank b -> a = b.
Hypothesis order : forall a b, lt b a = false <-> lex_le rank a b.
Lemma lt_spec a b : lt a b = true <-> lex_lt rank a b.
Proof.
  unfold lex_lt. rewrite <- order. destruct (lt a b); split; intros H; try reflexivity; try discriminate; exfalso; apply H; reflexivity.
Qed.
Lemma sorted_table table : StronglySorted (lex_le rank) table -> table_accepts rank table (fun v => In v table).
Proof.
  intros S v. induction S as [|x t S IH F].
  - exists false. split; [|split; [discriminate|intros []]]. apply (lu_intro _ _ _ 0); [cbn; lia|intros [|j] y E; discriminate E|].
    split; [discriminate|]. intros E. discriminate E.
  - destruct (lt x v) eqn:E.
    + destruct IH as (b & [i found H1 H2 H3] & B). exists found. split.
      * apply (lu_intro _ _ _ (Datatypes.S i)); [cbn; lia| |exact H3]. intros [|j] y Hy.
        -- injection Hy as <-. split; [lia|]. intros _. apply lt_spec. exact E.
        -- rewrite (H2 _ _ Hy). lia.
      * rewrite B. split; [intros I; right; exact I|]. intros [-> |I]; [|exact I]. exfalso. apply lt_spec in E. apply E. apply order.
        destruct (lt v v) eqn:E2; [|reflexivity]. apply lt_spec in E2. destruct (lex_le_total rank v v) as [Y|Y]; contradiction.
    + assert (V : lex_le rank v x) by (apply order; exact E). exists (negb (lt v x)). split.
      * apply (lu_intro _ _ _ 0); [cbn; lia| |].
        -- intros j y Hy. split; [|lia]. intros Y. exfalso. apply Y. destruct j as [|j]; [injection Hy as <-; exact V|].
           eapply lex_le_trans; [exact V|]. rewrite Forall_forall in F. apply F. eapply nth_error_In. exact Hy.
        -- cbn. rewrite negb_true_iff, order. split; [intros Y; f_equal; eapply lex_antisym; eassumption|]. intros [= ->]. exact V.
      * rewrite negb_true_iff, order. split.
        -- intros Y. left. eapply lex_antisym; eassumption.
        -- intros [-> |I]; [exact V|]. rewrite Forall_forall in F. apply F. exact I.
Qed.
Lemma looked_up_det table v b b' : looked_up (lex_lt rank) table v b -> looked_up (lex_lt rank) table v b' -> b = b'.
Proof.
  intros [i f H1 H2 H3] [i' f' H1' H2' H3']. assert (E : i = i').
  { destruct (Nat.lt_trichotomy i i') as [L|[L|L]]; [|exact L|].
    - destruct (nth_error table i) as [x|] eqn:N; [|apply nth_error_None in N; lia]. assert (Y : lex_lt rank x v) by (apply (H2' _ _ N); lia). apply (H2 _ _ N) in Y. lia.
    - destruct (nth_error table i') as [x|] eqn:N; [|apply nth_error_None in N; lia]. assert (Y : lex_lt rank x v) by (apply (H2 _ _ N); lia). apply (H2' _ _ N) in Y. lia. }
  subst i'. destruct f, f'; try reflexivity; [symmetry|]; [apply H3', H3; reflexivity|apply H3, H3'; reflexivity].
Qed.
End Table.
Lemma SSorted_filter {A} (R : A -> A -> Prop) q l : StronglySorted R l -> StronglySorted R (filter q l).
Proof.
  induction 1 as [|x l S IH F]; [constructor|]. cbn. destruct (q x); [|exact IH]. constructor; [exact IH|]. rewrite Forall_forall in *.
  intros y I. apply F. apply filter_In in I. tauto.
Qed.
Lemma SSorted_map {A B} (R : B -> B -> Prop) (g : A -> B) l : StronglySorted (fun a b => R (g a) (g b)) l -> StronglySorted R (map g l).
Proof. induction 1 as [|x l S IH F]; [constructor|]. cbn. constructor; [exact IH|]. apply Forall_map. exact F. Qed.
(** the values of the table: those which some supported version has *)
Lemma exists_values {A} ge (l : list (valid_value A)) : gv_min_remote (ge_ver ge) <= genSchemaVersion (ge_ver ge) ->
  Forall (fun v => vv_since v < vv_depr v) l -> forall a, In a (map vv_value (filter (vv_exists ge) l)) <->
  exists x r, In x l /\ vv_value x = a /\ supported (ge_ver ge) r /\ present_at (vv_since x) (vv_depr x) true r.
Proof.
  intros V F a. rewrite in_map_iff. rewrite Forall_forall in F. split.
  - intros (x & <- & I). apply filter_In in I as [I E]. unfold vv_exists in E. apply C34_exists in E as (r & S & P); [|exact V|exact (F x I)].
    exists x, r. auto.
  - intros (x & r & I & <- & S & P). exists x. split; [reflexivity|]. apply filter_In. split; [exact I|]. unfold vv_exists. apply C34_exists; [exact V|exact (F x I)|]. exists r. auto.
Qed.

(** ** Texts *)
Lemma lookup_here k v r : lookup k ((k, v) :: r) = v.
Proof. cbn. now rewrite str_eqb_refl. Qed.
Lemma indent_app n a b : indent_chars n (a ++ b) = indent_chars n a ++ indent_chars n b.
Proof. induction a as [|c a IH]; [reflexivity|]. cbn [app indent_chars]. rewrite IH. destruct (ascii_dec c newline); [|reflexivity]. cbn. now rewrite <- app_assoc. Qed.
Lemma indent_flat n a : flat a -> indent_chars n a = a.
Proof.
  induction a as [|c a IH]; [reflexivity|]. intros F. cbn. destruct (ascii_dec c newline) as [->|_]; [exfalso; apply F; left; reflexivity|].
  rewrite IH; [reflexivity|]. intros I. apply F. right. exact I.
Qed.
Lemma indent_join n s l : Forall flat l -> indented n (join s l) = join (indented n s) l.
Proof.
  rewrite !indented_chars. intros F. induction F as [|x l Fx F IH]; [reflexivity|]. destruct l as [|y l]; [apply indent_flat; exact Fx|].
  change (join s (x :: y :: l)) with (x ++ s ++ join s (y :: l)). rewrite !indent_app, IH, (indent_flat _ _ Fx). reflexivity.
Qed.
Definition sv_pieces : list piece := Eval vm_compute in match cut_template 20 string_valid_templ with Some l => l | None => [] end.
Lemma sv_cut : cut_template 20 string_valid_templ = Some sv_pieces. Proof. vm_compute. reflexivity. Qed.
Lemma string_valid_text lits : Forall flat lits -> join (T "," ++ [newline]) lits <> [] ->
  genProcessTemplate string_valid_templ [(L "VALUES", genStrListToString lits (L "," ++ [nl]) [])] false = Ok (string_valid_code lits).
Proof.
  intros F N. rewrite list_join. change (L "," ++ [nl]) with (T "," ++ [newline]). destruct (cut_template_spec _ _ _ sv_cut) as [Tl E].
  rewrite <- E. rewrite C36_filled; [|exact Tl|].
  - f_equal. unfold sv_pieces. cbn [filled].
    match goal with |- _ ++ indented (column ?d) (lookup ?k [(_, ?v)]) ++ _ = _ => change (lookup k [(L "VALUES", v)]) with (lookup (L "VALUES") [(L "VALUES", v)]); replace (column d) with 4%nat by (vm_compute; reflexivity) end.
    rewrite lookup_here, (indent_join _ _ _ F), app_nil_r. replace (indented 4 (T "," ++ [newline])) with (T "," ++ [newline] ++ T "    ") by (vm_compute; reflexivity).
    unfold string_valid_code. generalize (join (T "," ++ [newline] ++ T "    ") lits). intros J. reflexivity.
  - intros k I. unfold sv_pieces in I. cbn [holes] in I. destruct I as [<- |[]].
    match goal with |- lookup _ [(_, ?v)] <> _ => change (lookup (L "VALUES") [(L "VALUES", v)] <> []) end. rewrite lookup_here. exact N.
Qed.
Definition si_pieces : list piece := Eval vm_compute in match cut_template 20 string_init_templ with Some l => l | None => [] end.
Lemma si_cut : cut_template 20 string_init_templ = Some si_pieces. Proof. vm_compute. reflexivity. Qed.
Lemma string_init_text v : flat v -> v <> [] -> genProcessTemplate string_init_templ [(L "STR", v)] false = Ok (set_string (quote_char :: v ++ [quote_char])).
Proof.
  intros F N. destruct (cut_template_spec _ _ _ si_cut) as [Tl E]. rewrite <- E. rewrite C36_filled; [|exact Tl|].
  - f_equal. unfold si_pieces. cbn [filled].
    match goal with |- _ ++ indented (column ?d) (lookup ?k [(_, ?v)]) ++ _ = _ => change (lookup k [(L "STR", v)]) with (lookup (L "STR") [(L "STR", v)]); generalize (column d); intros n end.
    rewrite lookup_here, indented_chars, (indent_flat _ _ F), app_nil_r. unfold set_string. rewrite (app_comm_cons v [quote_char] quote_char), <- (app_assoc (quote_char :: v)). reflexivity.
  - intros k I. unfold si_pieces in I. cbn [holes] in I. destruct I as [<- |[]].
    match goal with |- lookup _ [(_, ?v)] <> _ => change (lookup (L "STR") [(L "STR", v)] <> []) end. rewrite lookup_here. exact N.
Qed.
Lemma ordinary_literal v : Forall ordinary v -> stands_for_string (quote ++ v ++ quote) v /\ flat (quote ++ v ++ quote).
Proof.
  intros F. split.
  - exists v. split; [reflexivity|]. induction F as [|c v (A & B & C & _) F IH]; constructor; auto.
  - assert (Q : ~ In newline quote) by (intros [E|[]]; discriminate E). unfold flat. rewrite !in_app_iff. intros [I|[I|I]]; try exact (Q I).
    rewrite Forall_forall in F. destruct (F _ I) as (_ & _ & N & _). now apply N.
Qed.

(** ** Bytes *)
Lemma byte_constant b : 0 <= b < 256 -> constant (byte_str b) b.
Proof.
  intros H. unfold byte_str. change (L "0x") with (T "0x"). rewrite <- (app_nil_r (pad0 2 (hex_str false b))).
  eapply const_lit, cpp_hex; [apply pad0_numeral, hex_str_spec; unfold two64; lia|left; split; reflexivity|]. apply first_here. unfold ctype_holds. cbn. lia.
Qed.
Lemma wrapped_tokens s r : Forall2 (fun a b => a = b \/ (white a = true /\ b = nl)) s r -> tokens s = tokens r.
Proof.
  assert (W : forall c, white c = true -> space_char c = true).
  { assert (forall c, implb (white c) (space_char c) = true) as Q by (apply all_chars_b; vm_compute; reflexivity). intros c E. specialize (Q c). rewrite E in Q. exact Q. }
  induction 1 as [|a b s r H F IH]; [reflexivity|]. destruct H as [-> |[Wa ->]].
  - cbn [tokens]. rewrite IH. destruct (space_char b); [reflexivity|]. destruct (ident_char b); [|reflexivity]. cbn [negb].
    destruct F as [|x y s r H F]; [reflexivity|]. destruct H as [-> |[Wx ->]]; [reflexivity|]. rewrite (space_not_ident x (W x Wx)). reflexivity.
  - cbn [tokens]. rewrite (W a Wa), IH. reflexivity.
Qed.
Lemma bytes_text l : exists r, bytes_str l = Ok r /\ tokens r = tokens (join (T ", ") (map byte_str l)).
Proof.
  unfold bytes_str. rewrite list_join. destruct (multiline_spec (join (L ", ") (map byte_str l)) 60 true) as (r & E & W). exists r. split; [exact E|].
  apply wraps_drop in W. apply wrapped_tokens in W. symmetry. exact W.
Qed.
Lemma bytes_array l : l <> [] -> Forall (fun b => 0 <= b < 256) l -> byte_array (join (T ", ") (map byte_str l)) l.
Proof.
  intros N F. split; [exact N|]. exists (map byte_str l). split; [reflexivity|]. clear N. induction F as [|b l B F IH]; constructor; [|exact IH]. split; [apply byte_constant; exact B|exact B].
Qed.
Lemma join_tokens s1 s2 l : starts s1 = true -> ends s1 = true -> s1 <> [] -> starts s2 = true -> ends s2 = true -> s2 <> [] -> tokens s1 = tokens s2 ->
  tokens (join s1 l) = tokens (join s2 l).
Proof.
  intros A1 B1 N1 A2 B2 N2 E. induction l as [|x l IH]; [reflexivity|]. destruct l as [|y l]; [reflexivity|].
  change (tokens (x ++ s1 ++ join s1 (y :: l)) = tokens (x ++ s2 ++ join s2 (y :: l))).
  rewrite !(tokens_r x) by (destruct s1, s2; try contradiction; assumption). rewrite !tokens_l by assumption. rewrite E, IH. reflexivity.
Qed.
Lemma concat_tokens l : Forall (fun x => ends x = true) l -> tokens (concat l) = flat_map tokens l.
Proof. induction 1 as [|x l E F IH]; [reflexivity|]. cbn [concat flat_map]. rewrite tokens_l by exact E. now rewrite IH. Qed.
Lemma ends_app a b : b <> [] -> ends (a ++ b) = ends b.
Proof. intros N. induction a as [|c a IH]; [reflexivity|]. cbn [app ends]. destruct (a ++ b) eqn:E; [|exact IH]. apply app_eq_nil in E as [_ ->]. contradiction. Qed.
Definition one_array (x : nat * list Z) : txt * txt := (array_name (fst x), join (T ", ") (map byte_str (snd x))).
Definition elem_text (n : txt) : txt := T "MapElem(std::begin(" ++ n ++ T "), std::end(" ++ n ++ T "))".
Definition dd_pieces : list piece := Eval vm_compute in match cut_template 20 data_def_templ with Some l => l | None => [] end.
Lemma dd_cut : cut_template 20 data_def_templ = Some dd_pieces. Proof. vm_compute. reflexivity. Qed.
Lemma array_ends a : ends (array_code a) = true.
Proof. unfold array_code. rewrite !app_assoc. rewrite ends_app by discriminate. reflexivity. Qed.
Lemma array_tokens n b b' : tokens b = tokens b' -> exists d, genProcessTemplate data_def_templ [(L "NAME", n); (L "BYTES", b)] false = Ok d /\ tokens d = tokens (array_code (n, b')).
Proof.
  intros E. destruct (template_tokens 20 data_def_templ dd_pieces [(L "NAME", n); (L "BYTES", b)] false dd_cut) as (d & D & Td). exists d. split; [exact D|]. rewrite Td. clear Td D.
  unfold dd_pieces. cbn [substituted].
  match goal with |- tokens ?t = _ => change t with (T "static const std::uint8_t " ++ n ++ (T "[] = {" ++ [newline] ++ T "    ") ++ b ++ ([newline] ++ T "};" ++ [newline])) end.
  unfold array_code. cbn [fst snd]. rewrite !(tokens_l (T "static const std::uint8_t ")) by reflexivity. f_equal.
  rewrite !(tokens_r n) by reflexivity. f_equal. rewrite (tokens_l (T "[] = {" ++ [newline] ++ T "    ")) by reflexivity. rewrite (tokens_l (T "[] = { ")) by reflexivity.
  rewrite !(tokens_r b), !(tokens_r b') by reflexivity. rewrite E.
  replace (tokens (T "[] = {" ++ [newline] ++ T "    ")) with (tokens (T "[] = { ")) by (vm_compute; reflexivity).
  replace (tokens ([newline] ++ T "};" ++ [newline])) with (tokens (T " }; ")) by (vm_compute; reflexivity). reflexivity.
Qed.
Lemma data_defs_spec ge l : forall i, exists ds kv, data_defs ge i l = Ok ds /\ map snd kv = map vv_value (filter (vv_exists ge) l) /\
  StronglySorted lt (map fst kv) /\ Forall (fun x => (i <= fst x < i + length l)%nat) kv /\
  map snd ds = map (fun x => elem_text (array_name (fst x))) kv /\ flat_map tokens (map fst ds) = flat_map tokens (map array_code (map one_array kv)).
Proof.
  induction l as [|v l IH]; intros i.
  - exists [], []. repeat split; constructor.
  - cbn [data_defs filter length]. destruct (IH (S i)) as (ds & kv & E & H1 & H2 & H3 & H4 & H5). destruct (vv_exists ge v).
    + destruct (bytes_text (vv_value v)) as (b & Eb & Tb). rewrite Eb. cbn [bind]. destruct (array_tokens (array_name i) b _ Tb) as (d & Ed & Td). rewrite Ed. cbn [bind]. rewrite E. cbn [bind].
      eexists _, ((i, vv_value v) :: kv). split; [reflexivity|]. split; [cbn; now rewrite H1|]. split; [|split; [|split]].
      * cbn. constructor; [exact H2|]. apply Forall_map. eapply Forall_impl; [|exact H3]. intros x. cbn beta. lia.
      * constructor; [cbn; lia|]. eapply Forall_impl; [|exact H3]. intros x. cbn beta. lia.
      * cbn [map]. rewrite H4. reflexivity.
      * cbn [map flat_map fst]. rewrite H5, Td. reflexivity.
    + exists ds, kv. split; [exact E|]. split; [exact H1|]. split; [exact H2|]. split; [|auto]. eapply Forall_impl; [|exact H3]. intros x. cbn beta. lia.
Qed.
Lemma name_inj i j : Z.of_nat i < two64 -> Z.of_nat j < two64 -> array_name i = array_name j -> i = j.
Proof.
  intros Hi Hj E. unfold array_name in E. apply app_inv_head in E. destruct (dec_str_spec (Z.of_nat i)) as [A _]; [lia|]. destruct (dec_str_spec (Z.of_nat j)) as [B _]; [lia|].
  rewrite E in A. apply numeral_spec in A as (_ & _ & A); [|lia]. apply numeral_spec in B as (_ & _ & B); [|lia]. lia.
Qed.
Lemma digits_dec s v : numeral 10 s v -> Forall dec_digit s.
Proof.
  intros H. apply numeral_spec in H as (_ & H & _); [|lia]. eapply Forall_impl; [|exact H]. intros c. cbn beta. unfold dec_digit.
  assert (Q : forall c, implb (digit_val c <? 10) (existsb (Ascii.eqb c) (T "0123456789")) = true) by (apply all_chars_b; vm_compute; reflexivity).
  intros D. specialize (Q c). replace (digit_val c <? 10) with true in Q by lia. cbn [implb] in Q. apply existsb_exists in Q as (d & I & E). apply Ascii.eqb_eq in E. subst d. exact I.
Qed.
Lemma name_ident i : Z.of_nat i < two64 -> identifier (array_name i).
Proof.
  intros H. destruct (dec_str_spec (Z.of_nat i)) as [A _]; [lia|]. apply digits_dec in A. unfold array_name. split; [split; [discriminate|]|].
  - apply Forall_app. split; [|eapply Forall_impl; [|exact A]; intros c D; right; exact D].
    apply Forall_forall. intros c I. left. unfold letter_or_underscore.
    assert (Q : forallb (fun c => existsb (Ascii.eqb c) (T "ABCDEFGHIJKLMNOPQRSTUVWXYZabcdefghijklmnopqrstuvwxyz_")) (L "ValidValue") = true) by (vm_compute; reflexivity).
    rewrite forallb_forall in Q. specialize (Q c I). apply existsb_exists in Q as (d & J & E). apply Ascii.eqb_eq in E. subst d. exact J.
  - exists "V"%char. split; [reflexivity|]. unfold letter_or_underscore. vm_compute. tauto.
Qed.
Lemma NoDup_names kv : StronglySorted lt (map fst kv) -> Forall (fun x : nat * list Z => Z.of_nat (fst x) < two64) kv -> NoDup (map fst (map one_array kv)).
Proof.
  intros S. induction kv as [|x kv IH]; intros F; cbn [map]; [constructor|]. cbn [map] in S. inversion S as [|y ys S2 L]; subst. inversion F as [|y ys Fx F2]; subst. constructor; [|apply IH; assumption].
  intros I. apply in_map_iff in I as (a & E & I). apply in_map_iff in I as (z & <- & I). cbn [fst one_array] in E. rewrite Forall_forall in F2, L. apply name_inj in E; [|exact (F2 z I)|exact Fx].
  specialize (L (fst z) (in_map fst _ _ I)). lia.
Qed.
Definition dv_pieces : list piece := Eval vm_compute in match cut_template 20 data_valid_templ with Some l => l | None => [] end.
Lemma dv_cut : cut_template 20 data_valid_templ = Some dv_pieces. Proof. vm_compute. reflexivity. Qed.
Definition dv_a : txt := Eval vm_compute in match dv_pieces with Text t :: _ => t | _ => [] end.
Definition dv_b : txt := Eval vm_compute in match dv_pieces with _ :: _ :: Text t :: _ => t | _ => [] end.
Definition dv_c : txt := Eval vm_compute in match dv_pieces with _ :: _ :: _ :: _ :: Text t :: _ => t | _ => [] end.
Lemma data_valid_text D V D' V' : tokens D = tokens D' -> tokens V = tokens V' -> ends D' = true ->
  exists body, genProcessTemplate data_valid_templ [(L "DEFS", D); (L "VALUES", V)] false = Ok body /\
  tokens body = tokens (T "if (!Base::valid()) { return false; } " ++ D' ++
    T "using MapElem = comms::util::ArrayView<std::uint8_t>; static const MapElem Map[] = { " ++ V' ++
    T " }; auto& val = Base::getValue(); auto iter = std::lower_bound(std::begin(Map), std::end(Map), val, " ++
    T "[](const MapElem& first, const typename Base::ValueType& second) { " ++
    T "return std::lexicographical_compare(first.begin(), first.end(), second.begin(), second.end()); }); " ++
    T "if ((iter == std::end(Map)) || (iter->size() != val.size())) { return false; } return std::equal(val.begin(), val.end(), iter->begin());").
Proof.
  intros ED EV Ee. destruct (template_tokens 20 data_valid_templ dv_pieces [(L "DEFS", D); (L "VALUES", V)] false dv_cut) as (b & B & Tb). exists b. split; [exact B|]. rewrite Tb. clear Tb B.
  unfold dv_pieces. cbn [substituted].
  match goal with |- tokens ?t = _ => change t with (dv_a ++ D ++ dv_b ++ V ++ dv_c ++ []) end. rewrite app_nil_r.
  rewrite (tokens_l dv_a) by reflexivity. rewrite (tokens_r D) by reflexivity. rewrite (tokens_l dv_b) by reflexivity. rewrite (tokens_r V) by reflexivity.
  set (r3 := T " }; auto& val = Base::getValue(); auto iter = std::lower_bound(std::begin(Map), std::end(Map), val, " ++ _).
  set (r1 := T "if (!Base::valid()) { return false; } "). set (r2 := T "using MapElem = comms::util::ArrayView<std::uint8_t>; static const MapElem Map[] = { ").
  rewrite (tokens_l r1) by reflexivity. rewrite (tokens_l D') by exact Ee. rewrite (tokens_l r2) by reflexivity. rewrite (tokens_r V') by reflexivity.
  replace (tokens dv_a) with (tokens r1) by (vm_compute; reflexivity). replace (tokens dv_b) with (tokens r2) by (vm_compute; reflexivity).
  replace (tokens dv_c) with (tokens r3) by (vm_compute; reflexivity). rewrite ED, EV. reflexivity.
Qed.
Lemma data_body ge s : d_valid s <> [] -> Z.of_nat (length (d_valid s)) < two64 ->
  (exists v, In v (d_valid s) /\ vv_exists ge v = true) ->
  Forall (fun v => vv_value v <> [] /\ Forall (fun b => 0 <= b < 256) (vv_value v)) (filter (vv_exists ge) (d_valid s)) ->
  exists body, data_valid_body ge s = Ok body /\ data_table body (map vv_value (filter (vv_exists ge) (d_valid s))).
Proof.
  intros N Len (v0 & I0 & E0) F. unfold data_valid_body. destruct (is_nil (d_valid s)) eqn:En; [destruct (d_valid s); [contradiction|discriminate En]|].
  destruct (data_defs_spec ge (d_valid s) 0) as (ds & kv & E & H1 & H2 & H3 & H4 & H5). rewrite E. cbn [bind].
  assert (B : Forall (fun x : nat * list Z => Z.of_nat (fst x) < two64) kv) by (eapply Forall_impl; [|exact H3]; intros x; cbn beta; lia).
  assert (Ends : Forall (fun x => ends x = true) (map array_code (map one_array kv))) by (apply Forall_map, Forall_forall; intros x _; apply array_ends).
  destruct (data_valid_text (genStrListToString (map fst ds) [nl] []) (genStrListToString (map snd ds) (L "," ++ [nl]) [])
     (concat (map array_code (map one_array kv))) (join (T ", ") (map (fun n => T "MapElem(std::begin(" ++ n ++ T "), std::end(" ++ n ++ T "))") (map (fun x => array_name (fst x)) kv)))) as (body & Eb & Tb).
  - rewrite list_join. change [nl] with [newline]. rewrite tokens_join, H5. symmetry. apply concat_tokens. exact Ends.
  - rewrite list_join, H4, map_map. unfold elem_text. apply join_tokens; discriminate || reflexivity.
  - clear - kv. induction (map array_code (map one_array kv)) as [|x l IH] eqn:El; [reflexivity|].
    assert (Q : Forall (fun x => ends x = true) (x :: l)) by (rewrite <- El; apply Forall_map, Forall_forall; intros y _; apply array_ends). clear El IH.
    induction Q as [|y q Ey Q IH]; [reflexivity|]. cbn [concat]. destruct (concat q) as [|c r] eqn:Ec; [rewrite app_nil_r; exact Ey|]. rewrite ends_app by discriminate. exact IH.
  - exists body. split; [exact Eb|]. exists (map one_array kv), (map (fun x => array_name (fst x)) kv). split; [|split; [exact Tb|split; [|split]]].
    + intros Z. apply map_eq_nil in Z. subst kv. cbn in H1. symmetry in H1. apply map_eq_nil in H1.
      assert (X : In v0 (filter (vv_exists ge) (d_valid s))) by (apply filter_In; auto). rewrite H1 in X. exact X.
    + apply NoDup_names; assumption.
    + apply Forall_map. eapply Forall_impl; [|exact B]. intros x Hx. apply name_ident. exact Hx.
    + rewrite <- H1. assert (F2 : Forall (fun x : nat * list Z => snd x <> [] /\ Forall (fun b => 0 <= b < 256) (snd x)) kv).
      { apply Forall_forall. intros x Ix. assert (Y : In (snd x) (map vv_value (filter (vv_exists ge) (d_valid s)))) by (rewrite <- H1; apply in_map; exact Ix).
        apply in_map_iff in Y as (w & <- & Iw). rewrite Forall_forall in F. exact (F w Iw). }
      clear - F2. assert (Sub : forall x, In x kv -> In x kv) by auto. revert Sub. generalize kv at 2 as all_kv. intros all_kv Sub. rewrite Forall_forall in F2.
      assert (G : forall q, (forall x, In x q -> In x kv) -> Forall2 (fun n l => exists s, In (n, s) (map one_array kv) /\ byte_array s l) (map (fun x => array_name (fst x)) q) (map snd q)).
      { intros q. induction q as [|x q IH]; intros Hq; constructor; [|apply IH; intros y Iy; apply Hq; right; exact Iy].
        exists (snd (one_array x)). split; [apply in_map_iff; exists x; split; [reflexivity|apply Hq; left; reflexivity]|].
        destruct (F2 x (Hq x (or_introl eq_refl))) as [X Y]. apply bytes_array; assumption. }
      apply G. auto.
Qed.
Definition di_pieces : list piece := Eval vm_compute in match cut_template 20 data_init_templ with Some l => l | None => [] end.
Lemma di_cut : cut_template 20 data_init_templ = Some di_pieces. Proof. vm_compute. reflexivity. Qed.
Lemma data_init_text s : d_default s <> [] -> Forall (fun b => 0 <= b < 256) (d_default s) -> exists code bytes,
  data_init s = Ok code /\ tokens code = tokens (set_bytes bytes) /\ byte_array bytes (d_default s).
Proof.
  intros N F. unfold data_init. destruct (is_nil (d_default s)) eqn:En; [destruct (d_default s); [contradiction|discriminate En]|].
  destruct (bytes_text (d_default s)) as (b & Eb & Tb). rewrite Eb. cbn [bind].
  destruct (template_tokens 20 data_init_templ di_pieces [(L "BYTES", b)] false di_cut) as (d & D & Td).
  exists d, (join (T ", ") (map byte_str (d_default s))). split; [exact D|]. split; [|apply bytes_array; assumption]. rewrite Td. clear Td D. unfold di_pieces. cbn [substituted].
  set (tail := T "};" ++ [newline] ++ T "comms::util::assign(Base::value(), std::begin(Data), std::end(Data));" ++ [newline]).
  match goal with |- tokens ?t = _ => change t with ((T "static const std::uint8_t Data[] = {" ++ [newline] ++ T "    ") ++ b ++ newline :: tail) end.
  unfold set_bytes. rewrite (tokens_l (T "static const std::uint8_t Data[] = {" ++ [newline] ++ T "    ")) by reflexivity.
  rewrite (tokens_l (T "static const std::uint8_t Data[] = { ")) by reflexivity. rewrite !tokens_r by reflexivity. rewrite Tb.
  replace (tokens (T "static const std::uint8_t Data[] = {" ++ [newline] ++ T "    ")) with (tokens (T "static const std::uint8_t Data[] = { ")) by (vm_compute; reflexivity).
  replace (tokens (newline :: tail)) with (tokens (T " }; comms::util::assign(Base::value(), std::begin(Data), std::end(Data));")) by (vm_compute; reflexivity). reflexivity.
Qed.

(** ** Options *)
Lemma copt_app s : copt s = T "comms::option::def::" ++ s. Proof. reflexivity. Qed.
Lemma def_plain x c : Forall (fun o => ~ sequence_option o) (comms_def_options x c).
Proof.
  apply Forall_forall. intros y I (s & E). apply def_options_form in I. rewrite (app_assoc_reverse (T "comms::option::def::") (T "Sequence") s) in E || idtac.
  change (T "comms::option::def::Sequence" ++ s) with (T "comms::option::def::" ++ (T "Sequence" ++ s)) in E.
  destruct I as [-> |[(t & ->)|[(t & ->)|[(t & ->)|[(t & ->)|[(t & ->)| ->]]]]]]; rewrite ?copt_app in E; try (apply app_inv_head in E); discriminate E.
Qed.
Lemma def_nonnil x c : Forall (fun o => o <> []) (comms_def_options x c).
Proof.
  apply Forall_forall. intros y I. apply def_options_form in I. destruct I as [-> |[(t & ->)|[(t & ->)|[(t & ->)|[(t & ->)|[(t & ->)| ->]]]]]]; discriminate.
Qed.
Definition fixed_list (n : Z) : list txt := if n =? 0 then [] else [copt (L "SequenceFixedSize<" ++ genNumToStringU n 0 ++ L ">")].
Lemma fixed_app n o : fixed_size_opt n o = o ++ fixed_list n.
Proof. unfold fixed_size_opt, fixed_list. destruct (n =? 0); [now rewrite app_nil_r|reflexivity]. Qed.
Lemma fixed_spec n : 0 <= n < two32 -> option_if (n <> 0) (fixed_size n) (fixed_list n).
Proof.
  intros B. unfold fixed_list, option_if. destruct (Z.eqb_spec n 0) as [->|N]; [right; auto|]. left. split; [exact N|]. eexists. split; [reflexivity|].
  exists (genNumToStringU n 0). split; [unfold an_option, copt; cbn [join]; rewrite <- ?app_assoc; reflexivity|]. apply numU_spec. unfold two32, two64 in *. lia.
Qed.
Definition att_list (opt cls : str) (global : bool) (scope : field -> str) (a : option attachment) : list txt :=
  match a with None => [] | Some a => [copt (opt ++ L "<" ++ attached_type cls global scope (L " ") a ++ L ">")] end.
Lemma att_app opt cls g sc a o : attached_opt opt cls g sc a o = o ++ att_list opt cls g sc a.
Proof. destruct a; [reflexivity|]. cbn. now rewrite app_nil_r. Qed.
Definition class_of (f : field) : txt := genClassName (c_name (f_common f)).
Lemma att_spec opt cls g sc a : attached_option opt (genClassName cls) g class_of sc a (att_list (L opt) cls g sc a).
Proof.
  unfold attached_option, option_if, att_list. destruct a as [[own f]|]; [|right; split; [intros H; apply H; reflexivity|reflexivity]].
  left. split; [discriminate|]. eexists. split; [reflexivity|]. exists own, f, (attached_type cls g sc (L " ") (own, f)). split; [reflexivity|]. split.
  - unfold an_option, copt. cbn [join]. rewrite <- ?app_assoc. reflexivity.
  - unfold attached_type. cbn [fst snd]. destruct own; [reflexivity|right; reflexivity].
Qed.
Definition force_list (opt : str) (d : str) : list txt := if is_nil d then [] else [copt opt].
Lemma force_app opt d o : forcing_opt opt d o = o ++ force_list opt d.
Proof. unfold forcing_opt, force_list. destruct (is_nil d); [now rewrite app_nil_r|reflexivity]. Qed.
Lemma force_spec opt d : option_if (d <> []) (eq (plain_option (T opt))) (force_list (L opt) d).
Proof.
  unfold force_list, option_if. destruct d; cbn; [right; split; [intros H; apply H; reflexivity|reflexivity]|]. left. split; [discriminate|]. eexists. split; reflexivity.
Qed.
Definition te_pieces : list piece := Eval vm_compute in match cut_template 20 term_templ with Some l => l | None => [] end.
Lemma te_cut : cut_template 20 term_templ = Some te_pieces. Proof. vm_compute. reflexivity. Qed.
Definition te_a : txt := Eval vm_compute in match te_pieces with Text t :: _ => t | _ => [] end.
Definition te_b : txt := Eval vm_compute in match te_pieces with _ :: _ :: Text t :: _ => t | _ => [] end.
Lemma term_text ns : exists t, genProcessTemplate term_templ [(L "PROT_NAMESPACE", ns)] false = Ok t /\ zero_suffix ns t.
Proof.
  destruct (template_tokens 20 term_templ te_pieces [(L "PROT_NAMESPACE", ns)] false te_cut) as (t & E & Tt). exists t. split; [exact E|]. unfold zero_suffix. rewrite Tt. clear Tt E.
  unfold te_pieces. cbn [substituted]. match goal with |- tokens ?t = _ => change t with (te_a ++ ns ++ te_b ++ []) end. rewrite app_nil_r.
  rewrite (tokens_l te_a) by reflexivity. rewrite tokens_r by reflexivity.
  set (r1 := T "comms::option::def::" ++ T "SequenceTerminationFieldSuffix" ++ T "<" ++ T "comms::field::IntValue<").
  set (r2 := T "::field::FieldBase<>, std::uint8_t, " ++ an_option (T "ValidNumValueRange") [T "0"; T "0"] ++ T ", " ++ an_option (T "FailOnInvalid") [[]] ++ T ">" ++ T ">").
  replace (an_option _ _) with (r1 ++ ns ++ r2) by (unfold r1, r2; unfold an_option at 3; cbn [join]; rewrite <- ?app_assoc; reflexivity).
  rewrite (tokens_l r1) by reflexivity. rewrite tokens_r by reflexivity.
  replace (tokens te_a) with (tokens r1) by (vm_compute; reflexivity). replace (tokens te_b) with (tokens r2) by (vm_compute; reflexivity). reflexivity.
Qed.
Lemma zero_spec ns b o : exists l, zero_term_opt ns b o = Ok (o ++ l) /\ option_if (b = true) (zero_suffix ns) l.
Proof.
  unfold zero_term_opt. destruct b; cbn [negb].
  - destruct (term_text ns) as (t & E & Z). rewrite E. cbn [bind]. exists [t]. split; [reflexivity|]. left. split; [reflexivity|]. exists t. auto.
  - exists []. split; [now rewrite app_nil_r|]. right. split; [discriminate|reflexivity].
Qed.
Lemma string_options x ns sc c s pre : 0 <= st_length s < two32 -> exists o, string_opts x ns sc c s pre = Ok o /\
  extent_options o [option_if (st_length s <> 0) (fixed_size (st_length s));
    attached_option "SequenceSerLengthFieldPrefix" (genClassName (c_name c)) (fs_global x) class_of sc pre;
    option_if (st_zeroSuffix s = true) (zero_suffix ns); option_if (st_detached s <> []) (eq (plain_option (T "SequenceLengthForcingEnabled")))].
Proof.
  intros B. unfold string_opts. rewrite fixed_app, att_app. destruct (zero_spec ns (st_zeroSuffix s) ((comms_def_options x c ++ fixed_list (st_length s)) ++ att_list (L "SequenceSerLengthFieldPrefix") (c_name c) (fs_global x) sc pre)) as (l & -> & Z).
  cbn [bind]. rewrite force_app. eexists. split; [reflexivity|]. exists (comms_def_options x c), [fixed_list (st_length s); att_list (L "SequenceSerLengthFieldPrefix") (c_name c) (fs_global x) sc pre; l; force_list (L "SequenceLengthForcingEnabled") (st_detached s)].
  split; [cbn [concat]; rewrite app_nil_r, <- !app_assoc; reflexivity|]. split; [apply def_plain|].
  constructor; [apply fixed_spec; exact B|]. constructor; [apply att_spec|]. constructor; [exact Z|]. constructor; [apply force_spec|constructor].
Qed.
Lemma data_options x sc c s pre : 0 <= d_length s < two32 ->
  extent_options (data_opts x sc c s pre) [option_if (d_length s <> 0) (fixed_size (d_length s));
    attached_option "SequenceSerLengthFieldPrefix" (genClassName (c_name c)) (fs_global x) class_of sc pre;
    option_if (d_detached s <> []) (eq (plain_option (T "SequenceLengthForcingEnabled")))].
Proof.
  intros B. unfold data_opts. rewrite fixed_app, att_app, force_app.
  exists (comms_def_options x c), [fixed_list (d_length s); att_list (L "SequenceSerLengthFieldPrefix") (c_name c) (fs_global x) sc pre; force_list (L "SequenceLengthForcingEnabled") (d_detached s)].
  split; [cbn [concat]; rewrite app_nil_r, <- !app_assoc; reflexivity|]. split; [apply def_plain|].
  constructor; [apply fixed_spec; exact B|]. constructor; [apply att_spec|]. constructor; [apply force_spec|constructor].
Qed.
Lemma list_options x sc c s cnt len elen term : 0 <= l_count s < two32 ->
  extent_options (list_opts x sc c s cnt len elen term) [option_if (l_count s <> 0) (fixed_size (l_count s));
    attached_option "SequenceSizeFieldPrefix" (genClassName (c_name c)) (fs_global x) class_of sc cnt;
    attached_option "SequenceSerLengthFieldPrefix" (genClassName (c_name c)) (fs_global x) class_of sc len;
    attached_option (if l_elemFixedLength s then "SequenceElemFixedSerLengthFieldPrefix" else "SequenceElemSerLengthFieldPrefix") (genClassName (c_name c)) (fs_global x) class_of sc elen;
    attached_option "SequenceTerminationFieldSuffix" (genClassName (c_name c)) (fs_global x) class_of sc term;
    option_if (l_detCount s <> []) (eq (plain_option (T "SequenceSizeForcingEnabled")));
    option_if (l_detLength s <> []) (eq (plain_option (T "SequenceLengthForcingEnabled")));
    option_if (l_detElemLength s <> []) (eq (plain_option (T "SequenceElemLengthForcingEnabled")))].
Proof.
  intros B. unfold list_opts. cbv zeta beta. rewrite fixed_app, !att_app, !force_app.
  pose (el := att_list (if l_elemFixedLength s then L "SequenceElemFixedSerLengthFieldPrefix" else L "SequenceElemSerLengthFieldPrefix") (c_name c) (fs_global x) sc elen).
  exists (comms_def_options x c), [fixed_list (l_count s); att_list (L "SequenceSizeFieldPrefix") (c_name c) (fs_global x) sc cnt; att_list (L "SequenceSerLengthFieldPrefix") (c_name c) (fs_global x) sc len;
    el; att_list (L "SequenceTerminationFieldSuffix") (c_name c) (fs_global x) sc term;
    force_list (L "SequenceSizeForcingEnabled") (l_detCount s); force_list (L "SequenceLengthForcingEnabled") (l_detLength s); force_list (L "SequenceElemLengthForcingEnabled") (l_detElemLength s)].
  split; [cbn [concat]; rewrite app_nil_r, <- !app_assoc; reflexivity|]. split; [apply def_plain|].
  constructor; [apply fixed_spec; exact B|]. do 2 (constructor; [apply att_spec|]).
  constructor; [unfold el; destruct (l_elemFixedLength s); apply att_spec|]. constructor; [apply att_spec|]. do 3 (constructor; [apply force_spec|]). constructor.
Qed.

(** ** Base classes *)
Lemma fixed_nonnil n : Forall (fun o : txt => o <> []) (fixed_list n).
Proof. unfold fixed_list. destruct (n =? 0); constructor; [discriminate|constructor]. Qed.
Lemma att_nonnil opt cls g sc a : Forall (fun o : txt => o <> []) (att_list opt cls g sc a).
Proof. unfold att_list. destruct a; constructor; [discriminate|constructor]. Qed.
Lemma force_nonnil opt d : Forall (fun o : txt => o <> []) (force_list opt d).
Proof. unfold force_list. destruct (is_nil d); constructor; [discriminate|constructor]. Qed.
Lemma zero_nonnil ns o : zero_suffix ns o -> o <> [].
Proof.
  intros Z ->. unfold zero_suffix in Z. set (r := T "comms::option::def::").
  replace (an_option _ _) with (r ++ T "SequenceTerminationFieldSuffix" ++ T "<" ++ join (T ", ") [T "comms::field::IntValue<" ++ ns ++ T "::field::FieldBase<>, std::uint8_t, " ++
     an_option (T "ValidNumValueRange") [T "0"; T "0"] ++ T ", " ++ an_option (T "FailOnInvalid") [[]] ++ T ">"] ++ T ">") in Z by (unfold an_option at 3; reflexivity).
  rewrite (tokens_l r) in Z by reflexivity. assert (X : exists a b, tokens r = a :: b) by (do 2 eexists; vm_compute; reflexivity).
  destruct X as (a & b & X). rewrite X in Z. discriminate Z.
Qed.
Lemma string_opts_nonnil x ns sc c s pre o : string_opts x ns sc c s pre = Ok o -> Forall (fun o => o <> []) o.
Proof.
  unfold string_opts. rewrite fixed_app, att_app. intros H. apply bind_Ok in H as (l & H & E). apply Ok_inj in E. subst o. rewrite force_app. apply Forall_app. split; [|apply force_nonnil].
  destruct (zero_spec ns (st_zeroSuffix s) ((comms_def_options x c ++ fixed_list (st_length s)) ++ att_list (L "SequenceSerLengthFieldPrefix") (c_name c) (fs_global x) sc pre)) as (l2 & E2 & Z).
  rewrite E2 in H. apply Ok_inj in H. subst l. apply Forall_app. split; [apply Forall_app; split; [apply Forall_app; split; [apply def_nonnil|apply fixed_nonnil]|apply att_nonnil]|].
  destruct Z as [(_ & z & -> & Z)|(_ & ->)]; constructor; [|constructor]. exact (zero_nonnil _ _ Z).
Qed.
Lemma data_opts_nonnil x sc c s pre : Forall (fun o => o <> []) (data_opts x sc c s pre).
Proof.
  unfold data_opts. rewrite fixed_app, att_app, force_app. apply Forall_app. split; [|apply force_nonnil].
  apply Forall_app; split; [apply Forall_app; split; [apply def_nonnil|apply fixed_nonnil]|apply att_nonnil].
Qed.
Lemma list_opts_nonnil x sc c s cnt len elen term : Forall (fun o => o <> []) (list_opts x sc c s cnt len elen term).
Proof.
  unfold list_opts. cbv zeta beta. rewrite fixed_app, !att_app, !force_app.
  repeat (apply Forall_app; split); first [apply def_nonnil|apply fixed_nonnil|apply att_nonnil|apply force_nonnil].
Qed.
Definition opts_text (opts : list txt) : txt := genStrListToString opts (L "," ++ [nl]) [].
Definition opts_comma (opts : list txt) : txt := if is_nil (opts_text opts) then [] else L ",".
Lemma join_nonnil s (o : txt) opts : o <> [] -> join s (o :: opts) <> [].
Proof. intros N H. destruct opts; cbn in H; [contradiction|]. apply app_eq_nil in H as [H _]. contradiction. Qed.
Lemma concat_commas o opts : tokens (join (T ", ") (o :: opts)) = tokens o ++ tokens (concat (map (fun o => T ", " ++ o) opts)).
Proof.
  revert o. induction opts as [|p opts IH]; intros o; [cbn [map concat]; change (tokens []) with (@nil txt); rewrite app_nil_r; reflexivity|].
  change (tokens (o ++ T ", " ++ join (T ", ") (p :: opts)) = tokens o ++ tokens ((T ", " ++ p) ++ concat (map (fun o => T ", " ++ o) opts))).
  rewrite (tokens_r o) by reflexivity. f_equal. rewrite <- app_assoc. rewrite !(tokens_l (T ", ")) by reflexivity. f_equal. rewrite IH.
  destruct opts; [cbn [map concat]; change (tokens []) with (@nil txt); rewrite !app_nil_r; reflexivity|]. symmetry. apply tokens_r. reflexivity.
Qed.
Lemma opts_tokens opts : Forall (fun o => o <> []) opts -> tokens (opts_comma opts ++ ([nl] ++ L "    ") ++ opts_text opts ++ [nl] ++ L ">") = tokens (concat (map (fun o => T ", " ++ o) opts) ++ T ">").
Proof.
  intros F. unfold opts_comma, opts_text. rewrite list_join. destruct opts as [|o opts].
  - vm_compute. reflexivity.
  - inversion F as [|y ys No F2]; subst. destruct (is_nil (join (L "," ++ [nl]) (o :: opts))) eqn:En.
    { exfalso. apply (join_nonnil (L "," ++ [nl]) o opts No). destruct (join (L "," ++ [nl]) (o :: opts)); [reflexivity|discriminate En]. }
    rewrite (tokens_l (L ",")) by reflexivity. rewrite (tokens_l ([nl] ++ L "    ")) by reflexivity. rewrite (tokens_r (join _ _)) by reflexivity.
    rewrite (join_tokens (L "," ++ [nl]) (T ", ")) by (discriminate || reflexivity). rewrite concat_commas.
    cbn [map concat]. set (rest := concat (map (fun o => T ", " ++ o) opts)). rewrite (tokens_r ((T ", " ++ o) ++ rest) (T ">")) by reflexivity.
    replace ((T ", " ++ o) ++ rest) with (T ", " ++ (o ++ rest)) by apply app_assoc. rewrite (tokens_l (T ", ") (o ++ rest)) by reflexivity. subst rest.
    replace (tokens (o ++ concat (map (fun o => T ", " ++ o) opts))) with (tokens o ++ tokens (concat (map (fun o => T ", " ++ o) opts))).
    + change (tokens ([nl] ++ L "    ")) with (@nil txt). rewrite <- !app_assoc. reflexivity.
    + destruct opts; [cbn [map concat]; change (tokens []) with (@nil txt); rewrite !app_nil_r; reflexivity|]. symmetry. apply tokens_r. reflexivity.
Qed.
Definition sb_pieces : list piece := Eval vm_compute in match cut_template 20 (seq_templ (L "comms::field::String") []) with Some l => l | None => [] end.
Lemma sb_cut : cut_template 20 (seq_templ (L "comms::field::String") []) = Some sb_pieces. Proof. vm_compute. reflexivity. Qed.
Definition db_pieces : list piece := Eval vm_compute in match cut_template 20 (seq_templ (L "comms::field::ArrayList") (L "," ++ [nl] ++ L "    std::uint8_t")) with Some l => l | None => [] end.
Lemma db_cut : cut_template 20 (seq_templ (L "comms::field::ArrayList") (L "," ++ [nl] ++ L "    std::uint8_t")) = Some db_pieces. Proof. vm_compute. reflexivity. Qed.
Definition lb_pieces : list piece := Eval vm_compute in match cut_template 20 (seq_templ (L "comms::field::ArrayList") (L "," ++ [nl] ++ L "    #^#ELEMENT#$#")) with Some l => l | None => [] end.
Lemma lb_cut : cut_template 20 (seq_templ (L "comms::field::ArrayList") (L "," ++ [nl] ++ L "    #^#ELEMENT#$#")) = Some lb_pieces. Proof. vm_compute. reflexivity. Qed.
Definition head_text (h : str) : txt := h ++ L "<" ++ [nl] ++ L "    ".
Definition base_text : txt := L "::field::FieldBase<>".
Lemma base_end head ns args opts X : Forall (fun o => o <> []) opts ->
  tokens X = tokens (concat (map (fun o => T ", " ++ o) args)) ->
  ends (T head ++ T "<") = true -> tokens (head_text (L head)) = tokens (T head ++ T "<") -> ends (head_text (L head)) = true ->
  tokens (head_text (L head) ++ ns ++ base_text ++ X ++ opts_comma opts ++ ([nl] ++ L "    ") ++ opts_text opts ++ [nl] ++ L ">") =
  tokens (T head ++ T "<" ++ ns ++ T "::field::FieldBase<>" ++ concat (map (fun o => T ", " ++ o) (args ++ opts)) ++ T ">").
Proof.
  intros F EX H1 H2 H3. rewrite (tokens_l (head_text (L head))) by exact H3. rewrite H2. rewrite (app_assoc (T head) (T "<")). rewrite (tokens_l (T head ++ T "<")) by exact H1. apply (f_equal (app (tokens (T head ++ T "<")))).
  rewrite !(tokens_r ns) by reflexivity. apply (f_equal (app (tokens ns))). rewrite (tokens_l base_text), (tokens_l (T "::field::FieldBase<>")) by reflexivity. apply (f_equal (app (tokens base_text))).
  rewrite map_app, concat_app. set (ca := concat (map (fun o => T ", " ++ o) args)) in *. set (co := concat (map (fun o => T ", " ++ o) opts)). rewrite <- (app_assoc ca co).
  assert (St : starts (opts_comma opts ++ ([nl] ++ L "    ") ++ opts_text opts ++ [nl] ++ L ">") = true).
  { unfold opts_comma. destruct (is_nil (opts_text opts)); reflexivity. }
  assert (St2 : starts (co ++ T ">") = true) by (subst co; destruct opts; reflexivity).
  rewrite (tokens_r X) by exact St. rewrite (tokens_r ca) by exact St2. rewrite EX. apply (f_equal (app (tokens ca))). exact (opts_tokens opts F).
Qed.
Lemma string_base_text ns opts : Forall (fun o => o <> []) opts -> exists t, seq_base (L "comms::field::String") [] ns [] opts = Ok t /\ base_class "comms::field::String" ns [] opts t.
Proof.
  intros F. unfold seq_base. fold (opts_text opts). fold (opts_comma opts). cbv zeta.
  match goal with |- exists t, genProcessTemplate _ ?kv _ = _ /\ _ => destruct (template_tokens 20 _ sb_pieces kv false sb_cut) as (t & E & Tt) end. exists t. split; [exact E|]. unfold base_class. rewrite Tt.
  clear Tt E. rewrite <- (base_end "comms::field::String" ns [] opts [] F); [|reflexivity|reflexivity|vm_compute; reflexivity|reflexivity].
  unfold sb_pieces. cbn [substituted app]. generalize (opts_text opts), (opts_comma opts). intros a b. reflexivity.
Qed.
Lemma data_base_text ns opts : Forall (fun o => o <> []) opts -> exists t, seq_base (L "comms::field::ArrayList") (L "," ++ [nl] ++ L "    std::uint8_t") ns [] opts = Ok t /\ base_class "comms::field::ArrayList" ns [T "std::uint8_t"] opts t.
Proof.
  intros F. unfold seq_base. fold (opts_text opts). fold (opts_comma opts). cbv zeta.
  match goal with |- exists t, genProcessTemplate _ ?kv _ = _ /\ _ => destruct (template_tokens 20 _ db_pieces kv false db_cut) as (t & E & Tt) end. exists t. split; [exact E|]. unfold base_class. rewrite Tt.
  clear Tt E. rewrite <- (base_end "comms::field::ArrayList" ns [T "std::uint8_t"] opts (L "," ++ [nl] ++ L "    std::uint8_t") F); [|vm_compute; reflexivity|reflexivity|vm_compute; reflexivity|reflexivity].
  unfold db_pieces. cbn [substituted app]. generalize (opts_text opts), (opts_comma opts). intros a b. reflexivity.
Qed.
Lemma list_base_text ns el opts : Forall (fun o => o <> []) opts -> exists t, seq_base (L "comms::field::ArrayList") (L "," ++ [nl] ++ L "    #^#ELEMENT#$#") ns el opts = Ok t /\ base_class "comms::field::ArrayList" ns [el] opts t.
Proof.
  intros F. unfold seq_base. fold (opts_text opts). fold (opts_comma opts). cbv zeta.
  match goal with |- exists t, genProcessTemplate _ ?kv _ = _ /\ _ => destruct (template_tokens 20 _ lb_pieces kv false lb_cut) as (t & E & Tt) end. exists t. split; [exact E|]. unfold base_class. rewrite Tt.
  clear Tt E. rewrite <- (base_end "comms::field::ArrayList" ns [el] opts (L "," ++ [nl] ++ L "    " ++ el) F); [| |reflexivity|vm_compute; reflexivity|reflexivity].
  - unfold lb_pieces. cbn [substituted app]. generalize (opts_text opts), (opts_comma opts). intros a b. reflexivity.
  - cbn [map concat]. rewrite app_nil_r. change (L "," ++ [nl] ++ L "    " ++ el) with ((L "," ++ [nl] ++ L "    ") ++ el). rewrite !tokens_l by reflexivity. reflexivity.
Qed.
