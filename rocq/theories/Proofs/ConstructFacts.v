(** Proofs about Model/CommsConstruct.v. *)
From Coq Require Import Lia ZifyBool ZifyNat Arith.
From Verif.Model Require Import Base Common Units Field FieldCommon OptCond GenUtil GenComms CommsInt CommsCond CommsConstruct.
From Verif.Spec Require Import Texts Ints GenSpec CppSpec TokenSpec CondCode CondTyping ConstructCode.
From Verif.Proofs Require Import BaseFacts CommonFacts GenFacts TemplateFacts CommsIntFacts CondCodeFacts CondTextFacts CondExprFacts TokenFacts FactoryFacts PrefixFacts ReadFacts.
Local Open Scope string_scope. Local Open Scope Z_scope. Local Open Scope list_scope.

Definition scalar (v : dval) : Prop := (exists bs, v = VBits bs) \/ exists ty names z, v = VNum ty names z.
Lemma scalar_access ge : forall f up v, typed ge up f v -> scalar v ->
  (forall p, value_access ge up f [] p = p ++ L ".getValue()") /\ (forall p, cast_type ge up f [] p = p ++ L "ValueType") /\
  exists leaf up', acc_leaf f [] = Some leaf /\ tbody ge up' leaf v /\ forall c b t, leaf <> FRef c b t.
Proof.
  fix IH 1. intros f up v Ty Sc. rewrite typed_eq in Ty.
  destruct (version_optional ge up f) eqn:V.
  { exfalso. destruct Sc as [(bs & ->)|(ty & names & z & ->)]; exact Ty. }
  destruct f; cbn [tbody] in Ty;
    try (exfalso; destruct Sc as [(bs & ->)|(ty & names & z & ->)]; exact Ty).
  1-3: split; [intro p; cbn [value_access]; rewrite V; cbn [is_nil]; now rewrite app_nil_r|];
       split; [intro p; cbn [cast_type]; rewrite V; now rewrite app_nil_r|]; eexists; exists up; (split; [reflexivity|]); (split; [exact Ty|discriminate]).
  match type of Ty with typed _ _ ?t _ => destruct (IH t _ _ Ty Sc) as (A & B & leaf & up' & C & D & E) end.
  split; [intro p; cbn [value_access]; rewrite V, app_nil_r; apply A|]. split; [intro p; cbn [cast_type]; rewrite V, app_nil_r; apply B|].
  exists leaf, up'. auto.
Qed.
Lemma find_member ce n fld : is_member ce n fld -> find_interface_field (ce_interfaces ce) n [] = Some fld.
Proof.
  intros ((fs & I & J) & E & U). revert U. induction (ce_interfaces ce) as [|fs' l IH]; intro U; [destruct I|]. cbn [find_interface_field].
  destruct (find (fun f => str_eqb (f_name f) n && verify_inner f []) fs') as [g|] eqn:F.
  - apply List.find_some in F as [Ig Hg]. apply andb_true_iff in Hg as [Hg _]. apply str_eqb_eq in Hg. rewrite (U fs' g); [reflexivity|now left|exact Ig|exact Hg].
  - destruct I as [->|I].
    + exfalso. pose proof (List.find_none _ _ F _ J) as Q. cbn beta in Q. rewrite E, str_eqb_refl in Q. destruct fld; discriminate Q.
    + apply IH; [exact I|]. intros fs0 g I0. apply U. now right.
Qed.
Lemma word_no_dot w : word w -> ~ In "."%char w.
Proof. intros W I. pose proof (word_nodot w W) as H. rewrite forallb_forall in H. specialize (H _ I). discriminate H. Qed.
Lemma find_iface_word ce n fld : word n -> is_member ce n fld -> find_iface ce n = Some (fld, []).
Proof.
  intros W I. unfold find_iface. pose proof (word_seg n [] W) as S. cbn [join] in S. rewrite S. cbn [rest_or_nil].
  destruct W as [W _]. destruct n as [|c n]; [congruence|]. cbn [is_nil]. now rewrite (find_member _ _ _ I).
Qed.
Lemma access_scalar ce n fld v : is_member ce n fld -> typed (ce_gen ce) [interface_elem] fld v -> scalar v ->
  field_access ce fld [] = Ok (T "transportField_" ++ genAccessName n ++ T "()").
Proof.
  intros I Ty Sc. unfold field_access. destruct (scalar_access _ _ _ _ Ty Sc) as (A & _). rewrite A. unfold iface_acc. destruct I as (_ & -> & _).
  match goal with |- context [split_last_dot (?p ++ ?q)] => change (p ++ q) with (p ++ "."%char :: T "getValue()") end.
  rewrite last_dot; [reflexivity|]. vm_compute. intuition discriminate.
Qed.
Lemma end_nl t : tokens (t ++ [nl]) = tokens t.
Proof. change [nl] with (nl :: []). rewrite tokens_nl. cbn [tokens]. apply app_nil_r. Qed.
Lemma bit_code ce s f bit (b : bool) : holds_fields ce s -> meaningful s (AskBit f bit b) -> exists t,
  construct_bool ce (if b then [] else T "!") (T "%" ++ f ++ T "." ++ bit) = Ok [t] /\ tokens t = tokens (print_c (SetBit (genAccessName f) bit b)).
Proof.
  intros [H _] (Wf & Wb & bs & E & Nb). destruct (H _ _ E) as (fld & I & Ty). unfold construct_bool.
  assert (split_last_dot (T "%" ++ f ++ T "." ++ bit) = Some (T "%" ++ f, bit)) as ->.
  { change (T "." ++ bit) with ("."%char :: bit). rewrite app_assoc. apply last_dot. now apply word_no_dot. }
  change (tl (T "%" ++ f)) with f. rewrite (find_iface_word _ _ _ Wf I). rewrite (access_scalar _ _ _ _ I Ty) by (left; eauto). cbn [bind].
  fill 20%nat. cbn [bind]. exists out. split; [reflexivity|]. rewrite Tt. clear E0 Tt. rewrite <- (end_nl (print_c _)). apply (f_equal tokens).
  cbn [substituted print_c]. look. destruct b; cbn [is_nil]; rewrite <- ?app_assoc; reflexivity.
Qed.
Lemma number_head names r n : number_text names r n -> exists c x, r = c :: x /\ ch_eqb c c_interface = false.
Proof.
  intros [D|[I _]]; [destruct (denotes_head _ _ D) as (c & x & -> & _ & Hc & _)|destruct (identifier_head _ I) as (c & x & -> & Hc)]; exists c, x; (split; [reflexivity|]).
  - destruct (ch_eqb c c_interface) eqn:E; [|reflexivity]. apply ch_eqb_eq in E. unfold c_interface in E. congruence.
  - apply word_char_neqb; [now left|]. vm_compute. auto 20.
Qed.
Lemma num_code ce s f r : holds_fields ce s -> meaningful s (AskNum f r) -> exists t lit ty names z n,
  construct_expr ce (T "%" ++ f) (T "=") r = Ok [t] /\ tokens t = tokens (print_c (SetNum (genAccessName f) lit)) /\
  s f = Some (VNum ty names z) /\ number_text names r n /\ literal_for ty lit n.
Proof.
  intros [H _] (Wf & ty & names & z & n & E & Nt & Su). destruct (H _ _ E) as (fld & I & Ty). unfold construct_expr.
  change (is_nil (T "%" ++ f)) with false. change (tl (T "%" ++ f)) with f. cbn iota. rewrite (find_iface_word _ _ _ Wf I).
  assert (scalar (VNum ty names z)) as Sc by (right; eauto).
  rewrite (access_scalar _ _ _ _ I Ty Sc). cbn [bind].
  destruct (scalar_access _ _ _ _ Ty Sc) as (_ & B & leaf & up' & Lf & Tb & Nr). rewrite B. destruct (proj1 (proj2 I)).
  destruct (prep_number (ce_gen ce) ce fld [] up' ty names z leaf r n eq_refl Lf Tb Nr Nt Su) as (lit & Ep & Lit).
  destruct (number_head _ _ _ Nt) as (c & x & -> & Hc). rewrite Hc, Ep. cbn [bind].
  fill 20%nat. cbn [bind]. exists out, lit, ty, names, z, n. split; [reflexivity|]. split; [|auto].
  rewrite Tt. clear E0 Tt. rewrite <- (end_nl (print_c _)). apply (f_equal tokens).
  cbn [substituted print_c]. look. rewrite <- ?app_assoc. reflexivity.
Qed.

(** ** Execution *)
Definition same_shape (v v' : dval) : Prop :=
  match v, v' with
  | VBits bs, VBits bs' => map fst bs = map fst bs'
  | VNum ty names _, VNum ty' names' _ => ty = ty' /\ names = names'
  | _, _ => v = v'
  end.
Definition shape_of (s0 s : fields) : Prop := forall n, match s0 n, s n with Some v, Some v' => same_shape v v' | None, None => True | _, _ => False end.
Lemma same_shape_refl v : same_shape v v. Proof. destruct v; cbn; auto. Qed.
Lemma shape_refl s : shape_of s s. Proof. intro n. destruct (s n); [apply same_shape_refl|exact I]. Qed.
Lemma first_named_in {A} n (l : list (txt * A)) : first_named n l <> None <-> In n (map fst l).
Proof.
  induction l as [|[m v] l IH]; cbn [first_named map fst]; [split; [congruence|intros []]|]. destruct (list_eq_dec ascii_dec m n) as [->|N].
  - split; [left; reflexivity|discriminate].
  - rewrite IH. cbn [In]. split; [right; assumption|intros [Q|Q]; [congruence|exact Q]].
Qed.
Lemma set_bit_names bit b bs : map fst (set_bit bit b bs) = map fst bs.
Proof. unfold set_bit. rewrite map_map. apply map_ext. intros [m v]. cbn [fst]. destruct (list_eq_dec ascii_dec m bit); reflexivity. Qed.
Lemma set_bit_same bit b bs : first_named bit bs <> None -> first_named bit (set_bit bit b bs) = Some b.
Proof.
  induction bs as [|[m v] bs IH]; intro H; [cbn in H; congruence|]. cbn [set_bit map fst first_named] in *. destruct (list_eq_dec ascii_dec m bit) as [->|N].
  - cbn [first_named]. now destruct (list_eq_dec ascii_dec bit bit).
  - cbn [first_named]. destruct (list_eq_dec ascii_dec m bit); [congruence|]. now apply IH.
Qed.
Lemma set_bit_other bit bit' b bs : bit' <> bit -> first_named bit' (set_bit bit b bs) = first_named bit' bs.
Proof.
  intro D. induction bs as [|[m v] bs IH]; [reflexivity|]. cbn [set_bit map fst first_named] in *. destruct (list_eq_dec ascii_dec m bit) as [->|N].
  - cbn [first_named]. destruct (list_eq_dec ascii_dec bit bit'); [congruence|exact IH].
  - cbn [first_named]. destruct (list_eq_dec ascii_dec m bit'); [reflexivity|exact IH].
Qed.
Lemma converted_det ty m y n : converted ty m y -> converted ty m n -> y = n.
Proof.
  intros [Hy Cy] [Hn Cn]. symmetry. apply (converted_iff ty y n Hy). split; [exact Hn|]. intros k I.
  specialize (Cy _ I). specialize (Cn _ I). replace (y - n) with ((m - n) - (m - y)) by lia. rewrite Zminus_mod, Cy, Cn. apply Zmod_0_l.
Qed.
Lemma update_eq s n v : update s n v n = Some v. Proof. unfold update. now destruct (list_eq_dec ascii_dec n n). Qed.
Lemma update_other s n v m : m <> n -> update s n v m = s m. Proof. intro D. unfold update. destruct (list_eq_dec ascii_dec m n); congruence. Qed.
(** one statement *)
Definition does (s0 : fields) (a : asked) (st : cstmt) : Prop := forall s, shape_of s0 s ->
  (exists s', sets s st s') /\
  forall s', sets s st s' -> shape_of s0 s' /\ satisfied s' a /\
    (forall a', meaningful s0 a' -> what a' <> what a -> satisfied s a' -> satisfied s' a') /\ forall m, m <> fst (what a) -> s' m = s m.
Lemma shape_unique ce s0 s f n n' v v' : holds_fields ce s0 -> shape_of s0 s -> s n = Some v -> accessor n f -> s n' = Some v' -> accessor n' f -> n' = n.
Proof.
  intros [_ H] Sh E A E' A'. pose proof (Sh n) as S1. pose proof (Sh n') as S2. rewrite E in S1. rewrite E' in S2.
  destruct (s0 n) as [v0|] eqn:F; [|destruct S1]. destruct (s0 n') as [v0'|] eqn:F'; [|destruct S2]. eapply H; eauto.
Qed.
Lemma bit_does ce s0 f bit b : holds_fields ce s0 -> meaningful s0 (AskBit f bit b) -> does s0 (AskBit f bit b) (SetBit (genAccessName f) bit b).
Proof.
  intros H (Wf & Wb & bs0 & E0 & Nb0) s Sh. pose proof (Sh f) as Sf. rewrite E0 in Sf. destruct (s f) as [v|] eqn:E; [|destruct Sf].
  destruct v as [| bs| | | | | |]; try discriminate Sf. cbn [same_shape] in Sf.
  assert (first_named bit bs <> None) as Nb by (apply first_named_in; rewrite <- Sf; now apply first_named_in).
  assert (accessor f (genAccessName f)) as A by (apply access_accessor; apply Wf).
  split.
  - eexists. eapply sets_bit; [|exact Nb]. split; [exact E|]. split; [exact A|]. intros n' v' E' A'. eapply shape_unique; eauto.
  - intros s' St. inversion St as [? ? n bs' ? ? (En & An & _) Nn|]; subst.
    assert (n = f) as -> by (eapply shape_unique; [exact H|exact Sh|exact E|exact A|exact En|exact An]). rewrite E in En. injection En as <-.
    split; [|split; [|split]].
    + intro m. destruct (list_eq_dec ascii_dec m f) as [->|D]; [rewrite update_eq, E0; cbn [same_shape]; now rewrite set_bit_names|]. rewrite update_other by exact D. apply Sh.
    + cbn [satisfied]. exists (set_bit bit b bs). split; [apply update_eq|now apply set_bit_same].
    + intros [f' bit' b'|f' r'] M D S; cbn [satisfied meaningful what] in *.
      * destruct S as (bs' & E' & Fn). destruct (list_eq_dec ascii_dec f' f) as [->|Df]; [|exists bs'; rewrite update_other by exact Df; auto].
        rewrite E in E'. injection E' as <-. exists (set_bit bit b bs). split; [apply update_eq|]. rewrite set_bit_other; [exact Fn|congruence].
      * destruct (list_eq_dec ascii_dec f' f) as [->|Df]; [destruct M as (_ & ty & names & z & n & E' & _); congruence|]. rewrite update_other by exact Df. exact S.
    + intros m D. apply update_other. exact D.
Qed.
Lemma num_does ce s0 f r lit ty names z n : holds_fields ce s0 -> meaningful s0 (AskNum f r) -> s0 f = Some (VNum ty names z) -> number_text names r n -> literal_for ty lit n ->
  does s0 (AskNum f r) (SetNum (genAccessName f) lit).
Proof.
  intros H (Wf & _) E0 Nt (k & Ck & Cv) s Sh. pose proof (Sh f) as Sf. rewrite E0 in Sf. destruct (s f) as [v|] eqn:E; [|destruct Sf].
  destruct v as [ty' names' z'| | | | | | |]; try discriminate Sf. cbn [same_shape] in Sf. destruct Sf as [<- <-].
  assert (accessor f (genAccessName f)) as A by (apply access_accessor; apply Wf).
  split.
  - eexists. eapply sets_num; [|exact Ck|exact Cv]. split; [exact E|]. split; [exact A|]. intros n' v' E' A'. eapply shape_unique; eauto.
  - intros s' St. inversion St as [|? ? f' ty' names' z2 ? m y (En & An & _) Cm Cy]; subst.
    assert (f' = f) as -> by (eapply shape_unique; [exact H|exact Sh|exact E|exact A|exact En|exact An]). rewrite E in En. injection En as <- <- <-.
    assert (m = k) as -> by (eapply constant_det; eauto). assert (y = n) as -> by (eapply converted_det; eauto).
    split; [|split; [|split]].
    + intro m. destruct (list_eq_dec ascii_dec m f) as [->|D]; [rewrite update_eq, E0; cbn [same_shape]; auto|]. rewrite update_other by exact D. apply Sh.
    + cbn [satisfied]. exists ty, names, n. split; [apply update_eq|exact Nt].
    + intros [f' bit' b'|f' r'] M D S; cbn [satisfied meaningful what] in *.
      * destruct (list_eq_dec ascii_dec f' f) as [->|Df]; [destruct M as (_ & _ & bs & E' & _); congruence|]. rewrite update_other by exact Df. exact S.
      * destruct (list_eq_dec ascii_dec f' f) as [->|Df]; [congruence|]. rewrite update_other by exact Df. exact S.
    + intros m D. apply update_other. exact D.
Qed.
Lemma runs_all s0 l sts : Forall2 (does s0) l sts -> Forall (meaningful s0) l -> NoDup (map what l) -> forall s, shape_of s0 s ->
  (exists s', sets_all s sts s') /\ forall s', sets_all s sts s' -> shape_of s0 s' /\ Forall (satisfied s') l /\
    (forall a', meaningful s0 a' -> ~ In (what a') (map what l) -> satisfied s a' -> satisfied s' a') /\ forall m, ~ In m (map (fun a => fst (what a)) l) -> s' m = s m.
Proof.
  induction 1 as [|a st l sts Da F IH]; intros Fm Nd s Sh.
  - split; [exists s; constructor|]. intros s' R. inversion R; subst. auto.
  - inversion Fm as [|? ? Ma Fm']; subst. cbn [map] in Nd. inversion Nd as [|? ? Na Nd']; subst.
    destruct (Da s Sh) as [(s1 & S1) U]. destruct (U s1 S1) as (Sh1 & _ & _ & _). destruct (IH Fm' Nd' s1 Sh1) as [(s2 & S2) _].
    split; [exists s2; econstructor; eauto|]. clear s1 S1 Sh1 s2 S2. intros s2 R. inversion R as [|? s1 ? ? ? S1 R1]; subst.
    destruct (U s1 S1) as (Sh1 & Sa & Pr & Ot). destruct (IH Fm' Nd' s1 Sh1) as [_ V]. destruct (V s2 R1) as (Sh2 & Sl & Pr2 & Ot2).
    split; [exact Sh2|]. split; [|split].
    + constructor; [|exact Sl]. apply Pr2; auto.
    + intros a' M N S. cbn [map In] in N. apply Pr2; [exact M|tauto|]. apply Pr; [exact M|intro; apply N; left; congruence|exact S].
    + intros m N. cbn [map In] in N. rewrite Ot2 by tauto. apply Ot. intro; apply N; left; congruence.
Qed.
(** ** The whole condition *)
Lemma code_all ce s0 : holds_fields ce s0 -> forall c l, asks c l -> Forall (meaningful s0) l -> exists ts sts, construct_code ce c = Ok ts /\
  Forall2 (fun t x => tokens t = tokens (print_c x)) ts sts /\ Forall2 (does s0) l sts /\ Forall2 is_for l sts.
Proof.
  intro H. fix IH 1. intros c l As M. destruct c as [le op r|isAnd cs].
  - cbn [construct_code]. inversion As as [f bit E1 E2|f bit E1 E2|f r' E1 E2|]; subst; inversion M as [|? ? Ma _]; subst.
    + destruct (bit_code ce s0 f bit true H Ma) as (t & E & Tt). cbn iota in E. exists [t], [SetBit (genAccessName f) bit true].
      split; [exact E|]. split; [constructor; [exact Tt|constructor]|]. split; (constructor; [|constructor]); [eapply bit_does; eauto|eexists; split; [apply access_accessor, Ma|reflexivity]].
    + destruct (bit_code ce s0 f bit false H Ma) as (t & E & Tt). cbn iota in E. exists [t], [SetBit (genAccessName f) bit false].
      split; [exact E|]. split; [constructor; [exact Tt|constructor]|]. split; (constructor; [|constructor]); [eapply bit_does; eauto|eexists; split; [apply access_accessor, Ma|reflexivity]].
    + destruct (num_code ce s0 f r H Ma) as (t & lit & ty & names & z & n & E & Tt & Es & Nt & Lt). exists [t], [SetNum (genAccessName f) lit].
      split; [exact E|]. split; [constructor; [exact Tt|constructor]|]. split; (constructor; [|constructor]); [eapply num_does; eauto|do 2 eexists; split; [apply access_accessor, Ma|reflexivity]].
  - inversion As as [| | |? ls F2]; subst. clear As. cbn [construct_code]. revert ls F2 M. induction cs as [|c cs IHcs]; intros ls F2 M.
    + inversion F2; subst. exists [], []. split; [reflexivity|]. repeat split; constructor.
    + inversion F2 as [|? x ? ls' Ax F2']; subst. cbn [concat] in M. apply Forall_app in M as [Mx Ml].
      destruct (IH c x Ax Mx) as (t1 & st1 & E1 & T1 & D1 & P1). destruct (IHcs ls' F2' Ml) as (t2 & st2 & E2 & T2 & D2 & P2).
      rewrite E1. cbn [bind]. rewrite E2. cbn [bind]. exists (t1 ++ t2), (st1 ++ st2). split; [reflexivity|]. split; [now apply Forall2_app|]. cbn [concat]. split; now apply Forall2_app.
Qed.
(** ** One text *)
Lemma ends_token a : ends a = false -> exists ws c r, tokens a = ws ++ [c :: r] /\ ident_char c = true.
Proof.
  induction a as [|c a IH]; [discriminate|]. destruct a as [|d a].
  - cbn [ends]. intro H. apply negb_false_iff in H. exists [], c, []. split; [|exact H]. cbn [tokens]. rewrite H.
    destruct (space_char c) eqn:S; [rewrite (space_not_ident _ S) in H; discriminate|reflexivity].
  - intro H. change (ends (d :: a) = false) in H. destruct (IH H) as (ws & e & r & E & Ie). rewrite tokens_cons. rewrite E.
    destruct (space_char c); [now exists ws, e, r|]. destruct (ident_char c) eqn:Ic; cbn [negb]; [|now exists ([c] :: ws), e, r].
    destruct (starts (d :: a)); [now exists ([c] :: ws), e, r|]. destruct ws as [|w ws]; [now exists [], c, (e :: r)|now exists ((c :: w) :: ws), e, r].
Qed.
Lemma semicolon_ends a ws : tokens a = ws ++ [T ";"] -> ends a = true.
Proof.
  intro E. destruct (ends a) eqn:H; [reflexivity|]. destruct (ends_token a H) as (ws' & c & r & E' & Ic). rewrite E in E'.
  apply app_inj_tail in E' as [_ E']. change (T ";") with [";"%char] in E'. assert (c = ";"%char) as -> by congruence. discriminate Ic.
Qed.
Lemma print_c_end x : exists ws, tokens (print_c x) = ws ++ [T ";"].
Proof.
  assert (forall a, exists ws, tokens (a ++ T ");") = ws ++ [T ";"]) as G.
  { intro a. exists (tokens a ++ [T ")"]). rewrite tokens_r by reflexivity. rewrite <- app_assoc. reflexivity. }
  destruct x as [f bit b|f lit]; cbn [print_c].
  - destruct b; [change (T "(true);") with (T "(true" ++ T ");")|change (T "(false);") with (T "(false" ++ T ");")]; rewrite !app_assoc; apply G.
  - rewrite !app_assoc. apply G.
Qed.
Lemma list_tokens l : Forall (fun t => ends t = true) l -> tokens (genStrListToString l [] []) = flat_map tokens l.
Proof.
  induction 1 as [|t l H F IH]; [reflexivity|]. cbn [flat_map]. destruct l as [|u l].
  - cbn [genStrListToString flat_map]. now rewrite !app_nil_r.
  - change (genStrListToString (t :: u :: l) [] []) with (t ++ genStrListToString (u :: l) [] []). rewrite tokens_l by exact H. now rewrite IH.
Qed.
Lemma print_cs_tokens l : tokens (print_cs l) = flat_map (fun x => tokens (print_c x)) l.
Proof. unfold print_cs. rewrite tokens_join. induction l as [|x l IH]; [reflexivity|]. cbn [map flat_map]. now rewrite IH. Qed.
Lemma internal_all ce s0 c l : holds_fields ce s0 -> asks c l -> Forall (meaningful s0) l -> exists t sts, internal_construct ce c = Ok t /\
  tokens t = tokens (print_cs sts) /\ Forall2 (does s0) l sts /\ Forall2 is_for l sts.
Proof.
  intros H As M. destruct (code_all ce s0 H c l As M) as (ts & sts & E & F2 & D & P). unfold internal_construct. rewrite E. cbn [bind].
  eexists. exists sts. split; [reflexivity|]. split; [|auto]. rewrite print_cs_tokens. clear - F2. rewrite list_tokens.
  - induction F2 as [|t x ts sts Hx F IH]; [reflexivity|]. cbn [flat_map]. now rewrite Hx, IH.
  - induction F2 as [|t x ts sts Hx F IH]; constructor; [|exact IH]. destruct (print_c_end x) as (ws & E). apply (semicolon_ends _ ws). now rewrite Hx.
Qed.
Lemma constructor_all ce s0 name c l : holds_fields ce s0 -> asks c l -> Forall (meaningful s0) l -> l <> [] -> exists t sts, def_construct ce name c = Ok t /\
  tokens t = tokens (print_constructor (genClassName name) sts) /\ Forall2 (does s0) l sts /\ Forall2 is_for l sts.
Proof.
  intros H As M N. destruct (internal_all ce s0 c l H As M) as (t & sts & E & Et & D & P). unfold def_construct. rewrite E. cbn [bind].
  destruct t as [|ch t].
  { exfalso. destruct D as [|a x l' sts' Hd Dd]; [congruence|]. rewrite print_cs_tokens in Et. cbn [flat_map] in Et. destruct (print_c_end x) as (ws & Ex). rewrite Ex in Et.
    destruct ws; discriminate Et. }
  cbn [is_nil]. fill 20%nat. exists out, sts. split; [reflexivity|]. split; [|auto]. rewrite Tt. clear E0 Tt.
  remember (ch :: t) as code eqn:Ec. cbn [substituted]. look. rewrite ?app_nil_r. unfold print_constructor.
  match goal with |- context [lookup ?k ?l] => change (lookup k l) with (@nil ascii) end. rewrite !app_nil_l.
  assert (forall x b y, ends x = true -> starts b = true -> (exists c r, x = c :: r /\ ident_char c = false) -> tokens (genClassName name ++ x ++ y ++ b) = tokens (genClassName name) ++ tokens x ++ tokens y ++ tokens b) as G.
  { intros x b y Hx Hb (c0 & r & -> & Ic). rewrite tokens_r by (cbn [app starts]; now rewrite Ic). f_equal. rewrite tokens_l by exact Hx. f_equal. now apply tokens_r. }
  rewrite G; [|reflexivity|reflexivity|do 2 eexists; split; reflexivity]. rewrite G; [|reflexivity|reflexivity|do 2 eexists; split; reflexivity]. now rewrite Et.
Qed.
