(** Proofs about conditions on fields of the interface. *)
From Coq Require Import Lia ZifyBool ZifyNat Arith.
From Verif.Model Require Import Base Common Units Field FieldCommon OptCond GenUtil GenComms CommsInt CommsCond CommsRead CommsConstruct.
From Verif.Spec Require Import Texts Ints GenSpec CppSpec TokenSpec CondCode CondTyping ConstructCode ReadCond.
From Verif.Proofs Require Import BaseFacts CommonFacts GenFacts TemplateFacts CommsIntFacts CondCodeFacts CondTextFacts CondExprFacts CondMeanFacts TokenFacts FactoryFacts PrefixFacts ReadFacts ConstructFacts.
From Verif.Proofs Require GroundFacts.
Local Open Scope string_scope. Local Open Scope Z_scope. Local Open Scope list_scope.

Definition isays (s : fields) (r : res str) (b : bool) : Prop := exists t e, r = Ok t /\ lay t (print_i e) /\ ivalue s e b.

Lemma scalar_checks ge : forall f up v, typed ge up f v -> scalar v -> forall acc p, opt_checks ge up f acc p = [].
Proof.
  fix IH 1. intros f up v Ty Sc acc p. rewrite typed_eq in Ty.
  destruct (version_optional ge up f) eqn:V.
  { exfalso. destruct Sc as [(bs & ->)|(ty & names & z & ->)]; exact Ty. }
  destruct f; cbn [tbody] in Ty;
    try (exfalso; destruct Sc as [(bs & ->)|(ty & names & z & ->)]; exact Ty).
  1-3: cbn [opt_checks]; rewrite V; reflexivity.
  cbn [opt_checks]. rewrite V. cbn [app]. eapply IH; eauto.
Qed.
Lemma bit_access ge bit : word bit -> forall f up bs, typed ge up f (VBits bs) -> first_named bit bs <> None ->
  verify_inner f bit = true /\ forall p, value_access ge up f bit p = p ++ L ".getBitValue_" ++ bit ++ L "()".
Proof.
  intro W. assert (is_nil bit = false) as Nb by (destruct W as [Nb _]; destruct bit; [congruence|reflexivity]).
  fix IH 1. intros f up bs Ty Fn. rewrite typed_eq in Ty.
  destruct (version_optional ge up f) eqn:V; [destruct Ty|].
  destruct f; cbn [tbody] in Ty; try (exfalso; exact Ty).
  - apply first_named_in in Fn. apply in_map_iff in Fn as (x & Ex & Ix). rewrite Forall_forall in Ty. specialize (Ty _ Ix). cbn beta in Ty. rewrite Ex in Ty. clear x Ex Ix.
    assert (exists i, assoc bit (s_bits s) = Some i) as (i & Ei).
    { clear IH. clear - Ty. induction (s_bits s) as [|[k v] l IH]; [destruct Ty|]. cbn [assoc map fst In] in *.
      destruct (str_eqb k bit) eqn:E; [eauto|]. destruct Ty as [->|Ty]; [|auto]. rewrite str_eqb_refl in E. discriminate. }
    split; [cbn [verify_inner]; rewrite Nb, Ei; reflexivity|]. intro p. cbn [value_access]. rewrite V, Nb, Ei, app_nil_r. reflexivity.
  - match type of Ty with typed _ _ ?t _ => destruct (IH t _ _ Ty Fn) as (A & B) end.
    split; [cbn [verify_inner]; rewrite Nb; exact A|]. intro p. cbn [value_access]. rewrite V, app_nil_r. exact (B p).
Qed.
Lemma find_member_at ce n fld rest : is_member ce n fld -> verify_inner fld rest = true -> find_interface_field (ce_interfaces ce) n rest = Some fld.
Proof.
  intros ((fs & I & J) & E & U) Vi. revert U. induction (ce_interfaces ce) as [|fs' l IH]; intro U; [destruct I|]. cbn [find_interface_field].
  destruct (find (fun f => str_eqb (f_name f) n && verify_inner f rest) fs') as [g|] eqn:F.
  - apply List.find_some in F as [Ig Hg]. apply andb_true_iff in Hg as [Hg _]. apply str_eqb_eq in Hg. rewrite (U fs' g); [reflexivity|now left|exact Ig|exact Hg].
  - destruct I as [->|I].
    + exfalso. pose proof (List.find_none _ _ F _ J) as Q. cbn beta in Q. rewrite E, str_eqb_refl, Vi in Q. discriminate Q.
    + apply IH; [exact I|]. intros fs0 g I0. apply U. now right.
Qed.
Lemma word_nonnil w : word w -> is_nil w = false.
Proof. intros [N _]. destruct w; [congruence|reflexivity]. Qed.
Lemma operand_iface x : (forall c r, x = c :: r -> c <> "#"%char /\ c <> "?"%char) -> operand_info ("%"%char :: x) = (OInterface, MNone, x).
Proof.
  intro H. unfold operand_info. change (ch_eqb "%"%char c_sibling) with false. change (ch_eqb "%"%char c_interface) with true. cbn [negb andb].
  destruct x as [|c r]; [reflexivity|]. destruct (H c r eq_refl) as [A B].
  destruct (ch_eqb c "#") eqn:E; [apply ch_eqb_eq in E; contradiction|]. destruct (ch_eqb c "?") eqn:E'; [apply ch_eqb_eq in E'; contradiction|]. reflexivity.
Qed.
Lemma word_start w x : word w -> forall c r, w ++ x = c :: r -> c <> "#"%char /\ c <> "?"%char.
Proof.
  intros [N F] c r E. destruct w as [|d w]; [congruence|]. injection E as -> _. inversion F as [|? ? H _]; subst.
  split; apply (word_char_not c H); vm_compute; tauto.
Qed.
Lemma accessor_flat f : word f -> flat (genAccessName f).
Proof.
  intros W I. assert (In newline f) as I'; [|exact (word_flat f W I')]. destruct W as [N _]. pose proof (access_accessor f N) as A.
  destruct A as [(i & c & c' & r & E1 & E2 & E3 & E4)|(c & r & E1 & E2 & _)].
  - rewrite E2 in I. destruct I as [I|I]; [exfalso; subst c'; apply nth_error_In in E4; vm_compute in E4; intuition discriminate|rewrite E1; now right].
  - now rewrite E2 in I.
Qed.
Section Cond.
Variables (ce : cond_env) (s0 s : fields).
Hypothesis (H : holds_fields ce s0) (Sh : shape_of s0 s).
Lemma field_of f v : s f = Some v -> scalar v -> exists v0 fld, s0 f = Some v0 /\ same_shape v0 v /\ scalar v0 /\ is_member ce f fld /\ typed (ce_gen ce) [interface_elem] fld v0.
Proof.
  intros E Sc. pose proof (Sh f) as Sf. rewrite E in Sf. destruct (s0 f) as [v0|] eqn:E0; [|destruct Sf].
  destruct (proj1 H _ _ E0) as (fld & M & Ty). exists v0, fld. split; [reflexivity|]. split; [exact Sf|]. split; [|auto].
  destruct Sc as [(bs & ->)|(ty & names & z & ->)]; destruct v0; try discriminate Sf; [left|right]; eauto.
Qed.
Lemma field_is f v : word f -> s f = Some v -> the_field s (genAccessName f) f v.
Proof.
  intros W E. assert (accessor f (genAccessName f)) as A by (apply access_accessor; apply W). split; [exact E|]. split; [exact A|].
  intros n' v' E' A'. eapply shape_unique; eauto.
Qed.
Lemma base_lay x : flat x -> lay (T "Base::transportField_" ++ x) (T "Base::transportField_" ++ x).
Proof. intro F. change (T "Base::transportField_" ++ x) with ("B"%char :: T "ase::transportField_" ++ x). apply lay_flat; [|discriminate]. apply (flat_app (T "Base::transportField_")); [flat_lit|exact F]. Qed.
Lemma ibit up f bit bs x op : word f -> word bit -> s f = Some (VBits bs) -> first_named bit bs = Some x -> op = [] \/ op = T "!" ->
  isays s (cond_expr_text ce up [] [] op (T "%" ++ f ++ T "." ++ bit)) (if is_nil op then x else negb x).
Proof.
  intros Wf Wb E Fn Ho. destruct (field_of f _ E) as (v0 & fld & E0 & Ss & Sc & M & Ty); [left; eauto|].
  destruct v0 as [| bs0| | | | | |]; try discriminate Ss. cbn [same_shape] in Ss.
  assert (first_named bit bs0 <> None) as Nb by (apply first_named_in; rewrite Ss; apply first_named_in; congruence).
  destruct (bit_access _ bit Wb _ _ _ Ty Nb) as [Vi Va].
  unfold cond_expr_text. change (operand_info []) with (OInvalid, MNone, @nil ascii). cbn iota.
  change (T "%" ++ f ++ T "." ++ bit) with ("%"%char :: f ++ T "." ++ bit). rewrite operand_iface by (apply word_start; exact Wf).
  assert (find_operand ce up [] OInterface (f ++ T "." ++ bit) = Some (mkOp fld [interface_elem] true bit)) as ->.
  { unfold find_operand. pose proof (word_seg f [bit] Wf) as S. cbn [join] in S. rewrite S. cbn [rest_or_nil].
    assert (is_nil (f ++ T "." ++ bit) = false) as -> by (destruct f; [destruct Wf; congruence|reflexivity]).
    now rewrite (find_member_at _ _ _ _ M Vi). }
  unfold op_checks. cbn [op_up op_field op_acc]. rewrite (scalar_checks _ _ _ _ Ty Sc). cbn [app genStrListToString]. unfold op_value. cbn [op_up op_field op_acc].
  rewrite Va. unfold op_prefix. cbn [op_iface op_field]. destruct (proj1 (proj2 M)).
  assert (cpp_op op = op) as -> by (destruct Ho as [-> | ->]; reflexivity). rewrite app_nil_r. cbn [app].
  assert (flat (genAccessName (f_name fld) ++ T "().getBitValue_" ++ bit ++ T "()")) as Fl.
  { repeat apply flat_app; try flat_lit; [now apply accessor_flat|now apply word_flat]. }
  assert (ivalue s (IBit (genAccessName (f_name fld)) bit) x) as Iv by (eapply iv_bit; [apply field_is; [exact Wf|exact E]|exact Fn]).
  eexists. exists (if is_nil op then IBit (genAccessName (f_name fld)) bit else INot (IBit (genAccessName (f_name fld)) bit)).
  split; [reflexivity|]. split.
  - destruct Ho as [-> | ->]; cbn [is_nil print_i].
    + match goal with |- lay ?t ?u => replace t with u end; [now apply base_lay|]. rewrite <- !app_assoc. reflexivity.
    + match goal with |- lay ?t ?u => replace t with u end.
      * apply (lay_flat "!"%char); [|discriminate]. apply (flat_app [_] _); [flat_lit|]. apply (flat_app (T "Base::transportField_")); [flat_lit|exact Fl].
      * rewrite <- !app_assoc. reflexivity.
  - destruct Ho as [-> | ->]; cbn [is_nil]; [exact Iv|]. now apply iv_not.
Qed.
Lemma inum up f op r ty names z n o : word f -> s f = Some (VNum ty names z) -> number_text names r n -> suits ty r n -> written dsl_ops op o ->
  isays s (cond_expr_text ce up [] (T "%" ++ f) op r) (num_holds o z n).
Proof.
  intros Wf E Nt Su Wo. destruct (field_of f _ E) as (v0 & fld & E0 & Ss & Sc & M & Ty); [right; eauto|].
  destruct v0 as [ty0 names0 z0| | | | | | |]; try discriminate Ss. cbn [same_shape] in Ss. destruct Ss as [-> ->].
  assert (exists c x, r = c :: x /\ c <> "$"%char /\ c <> "%"%char) as (c & x & Er & N1 & N2).
  { destruct Nt as [D | [Id _]].
    - destruct (denotes_head _ _ D) as (c & x & -> & A & B & _). eauto.
    - destruct (identifier_head _ Id) as (c & x & -> & Hc). exists c, x. split; [reflexivity|].
      split; apply word_char_not; auto; vm_compute; tauto. }
  unfold cond_expr_text. change (T "%" ++ f) with ("%"%char :: f).
  rewrite operand_iface by (intros c' r'; rewrite <- (app_nil_r f); apply word_start; exact Wf).
  rewrite Er at 1. rewrite (info_plain _ _ N1 N2). rewrite <- Er.
  assert (find_operand ce up [] OInterface f = Some (mkOp fld [interface_elem] true [])) as ->.
  { unfold find_operand. pose proof (word_seg f [] Wf) as S. cbn [join] in S. rewrite S. cbn [rest_or_nil]. rewrite (word_nonnil _ Wf).
    now rewrite (find_member _ _ _ M). }
  unfold cond_value_comp. destruct (cpp_written _ _ Wo) as (Wc & Fo & _). cbn [op_field op_acc op_up].
  destruct (scalar_access _ _ _ _ Ty Sc) as (A & B & leaf & up' & Lf & Tb & Nr).
  destruct (prep_number (ce_gen ce) ce fld [] up' ty names z0 leaf r n eq_refl Lf Tb Nr Nt Su) as (lit & El & m & Cm & Vm).
  rewrite El. cbn [bind]. rewrite B. unfold op_checks. cbn [op_up op_field op_acc]. rewrite (scalar_checks _ _ _ _ Ty Sc).
  unfold with_checks. cbn [is_nil app]. unfold op_value. cbn [op_up op_field op_acc]. rewrite A. unfold op_prefix, op_type_prefix. cbn [op_iface op_field].
  destruct (proj1 (proj2 M)).
  eexists. exists (INum (genAccessName (f_name fld)) (cpp_op op) lit). split; [reflexivity|]. split.
  - match goal with |- lay ?t ?u => replace t with u end.
    + cbn [print_i]. apply base_lay. repeat apply flat_app; try flat_lit; auto using accessor_flat. eapply constant_flat; eauto.
    + cbn [print_i]. change (is_nil (L "ValueType")) with false. cbn iota. rewrite <- !app_assoc. reflexivity.
  - eapply iv_num; [apply field_is; [exact Wf|exact E]|exact Wc|exact Cm|exact Vm].
Qed.
Theorem icond_says up : forall c brackets b, imeans s c b -> isays s (cond_text ce up [] brackets c) b.
Proof.
  induction c as [l op r|isAnd cs IH] using GroundFacts.cond_ind'; intros brackets b Me.
  - cbn [cond_text]. inversion Me; subst.
    + eapply (ibit up f bit bs b []); eauto.
    + eapply (ibit up f bit bs x (T "!")); eauto.
    + eapply inum; eauto.
  - assert (cs <> [] /\ Z.of_nat (length cs) < 2 ^ 32 /\ exists bs, Forall2 (imeans s) cs bs /\ b = if isAnd then forallb (fun b => b) bs else existsb (fun b => b) bs)
      as (Nc & Lc & bs & Fm & Eb) by (inversion Me; subst; eauto 6).
    cbn [cond_text].
    assert (exists ts es, (fix go (cs : list cond) : res (list str) :=
               match cs with
               | [] => Ok []
               | c :: cs' => v <- cond_text ce up [] true c ;; rest <- go cs' ;; Ok (v :: rest)
               end) cs = Ok ts /\ length ts = length cs /\ Forall2 lay ts (map print_i es) /\ Forall2 (ivalue s) es bs) as (ts & es & -> & Ln & Fl & Fv).
    { clear Me Nc Lc Eb. revert IH. induction Fm as [|c b' cs bs Mc Fm IHF]; intros IH.
      - exists [], []. repeat split; constructor.
      - inversion IH as [|? ? Hc IH']; subst.
        destruct (Hc true b' Mc) as (t & e & -> & Lt & Vt). destruct (IHF IH') as (ts & es & -> & Ln & Fl & Fv).
        exists (t :: ts), (e :: es). repeat split; [now cbn; rewrite Ln|now constructor|now constructor]. }
    cbn [bind]. assert (ts <> []) as Nt by (destruct ts; [destruct cs; [congruence|discriminate]|discriminate]).
    destruct (list_lay isAnd brackets ts (map print_i es) Fl Nt ltac:(rewrite Ln; exact Lc)) as (t & E & Lt).
    destruct (list_template _ _ _) as [t' r'].
    assert (ivalue s (IAll isAnd (map IParen es)) b) as V.
    { assert (es <> []) as Ne by (intros ->; inversion Fl; subst; congruence).
      subst b. destruct isAnd; constructor.
      1, 4: clear - Fv; induction Fv; cbn [map]; constructor; auto; now constructor.
      1, 3: destruct es; [congruence|discriminate].
      all: clear; induction es; cbn [map]; constructor; auto; exact I. }
    exists t, (if brackets then IParen (IAll isAnd (map IParen es)) else IAll isAnd (map IParen es)). split; [exact E|]. split.
    + rewrite map_map in Lt. destruct brackets; cbn [print_i]; rewrite map_map; exact Lt.
    + destruct brackets; [now constructor|exact V].
Qed.
End Cond.

(** ** The value is unique *)
Lemma the_field_det s f n v n' v' : the_field s f n v -> the_field s f n' v' -> n = n' /\ v = v'.
Proof. intros (E & A & _) (E' & A' & U). assert (n = n') as -> by (eapply U; eauto). split; [reflexivity|congruence]. Qed.
Lemma cpp_ops_det op o o' : written cpp_ops op o -> written cpp_ops op o' -> o = o'.
Proof.
  unfold written, cpp_ops. cbn [In]. intros A B.
  repeat (destruct A as [A|A]; [apply pair_equal_spec in A as [A1 A2]; subst; repeat (destruct B as [B|B]; [apply pair_equal_spec in B as [B1 B2]; first [discriminate B1|congruence]|]); destruct B|]). destruct A.
Qed.
Lemma ivalue_det s : forall e b b', ivalue s e b -> ivalue s e b' -> b = b'.
Proof.
  fix IH 1. intros e b b' V V'. destruct e as [f bit|f op lit|e|e|isAnd es].
  - inversion V as [? ? ? ? ? F1 N1| | | | |]; subst. inversion V' as [? ? ? ? ? F2 N2| | | | |]; subst. destruct (the_field_det _ _ _ _ _ _ F1 F2) as [_ E]. injection E as <-. congruence.
  - inversion V as [|? ? ? ? ? ? ? ? ? ? F1 W1 C1 D1| | | |]; subst. inversion V' as [|? ? ? ? ? ? ? ? ? ? F2 W2 C2 D2| | | |]; subst.
    destruct (the_field_det _ _ _ _ _ _ F1 F2) as [_ E]. injection E as <- <- <-. pose proof (constant_det _ _ _ C1 C2) as E. subst m0. pose proof (converted_det _ _ _ _ D1 D2) as E. subst y0.
    pose proof (cpp_ops_det _ _ _ W1 W2) as E. subst o0. reflexivity.
  - inversion V as [| |? ? V1| | |]; subst. inversion V' as [| |? ? V2| | |]; subst. f_equal. exact (IH e _ _ V1 V2).
  - inversion V as [| | |? ? V1| |]; subst. inversion V' as [| | |? ? V2| |]; subst. exact (IH e _ _ V1 V2).
  - assert (forall bs bs', Forall2 (ivalue s) es bs -> Forall2 (ivalue s) es bs' -> bs = bs') as G.
    { clear V V'. induction es as [|e es IHes]; intros bs bs' F1 F2; inversion F1 as [|? x ? xs A1 A2]; subst; inversion F2 as [|? y ? ys B1 B2]; subst; [reflexivity|].
      f_equal; [exact (IH e _ _ A1 B1)|exact (IHes _ _ A2 B2)]. }
    destruct isAnd.
    + inversion V as [| | | |? bs F1|]; subst. inversion V' as [| | | |? bs' F2|]; subst. rewrite (G _ _ F1 F2). reflexivity.
    + inversion V as [| | | | |? bs F1]; subst. inversion V' as [| | | | |? bs' F2]; subst. rewrite (G _ _ F1 F2). reflexivity.
Qed.
(** ** The read function *)
Lemma read_check ce up t e c : cond_text ce up [] true c = Ok t -> lay t (print_i e) -> exists code, read_condition ce up (Some c) = Ok code /\ tokens code = tokens (print_check e).
Proof.
  intros E Ly. unfold read_condition. rewrite E. cbn [bind]. rewrite (lay_nonnil _ _ Ly). fill 20%nat. exists out. split; [reflexivity|]. rewrite Tt. clear E0 Tt.
  assert (tokens t = tokens (print_i e)) as Te.
  { rewrite <- (unindent_tokens t false). pose proof (Ly false []) as Q. rewrite app_nil_r in Q. rewrite Q. cbn [unindent]. now rewrite app_nil_r. }
  cbn [substituted]. look. unfold print_check.
  assert (forall a b x, ends a = true -> starts b = true -> tokens (a ++ x ++ b) = tokens a ++ tokens x ++ tokens b) as G.
  { intros a b x Ha Hb. rewrite tokens_l by exact Ha. f_equal. now apply tokens_r. }
  match goal with |- tokens (?a ++ t ++ ?b) = tokens (?a' ++ ?x ++ ?b') => transitivity (tokens a ++ tokens t ++ tokens b); [apply G; reflexivity|];
    transitivity (tokens a' ++ tokens x ++ tokens b'); [|symmetry; apply G; reflexivity] end.
  apply (f_equal2 (@app txt)); [vm_compute; reflexivity|]. apply (f_equal2 (@app txt)); [exact Te|]. vm_compute. reflexivity.
Qed.
(** ** What the constructor establishes *)
Lemma number_text_det names r n n' : number_text names r n -> number_text names r n' -> n = n'.
Proof.
  intros [A|[A B]] [C|[C D]]; [eapply denotes_det; eauto|exfalso; eapply identifier_no_number; eauto|exfalso; eapply identifier_no_number; eauto|congruence].
Qed.
Lemma asked_means s0 s : shape_of s0 s -> forall c l, asks c l -> listed c -> Forall (meaningful s0) l -> Forall (satisfied s) l -> imeans s c true.
Proof.
  intro Sh. induction c as [le op r|isAnd cs IH] using GroundFacts.cond_ind'; intros l As Li M S.
  - inversion As; subst; inversion M as [|? ? Ma _]; subst; inversion S as [|? ? Sa _]; subst; cbn [meaningful satisfied] in *.
    + destruct Ma as (Wf & Wb & _), Sa as (bs & E & Fn). eapply im_bit; eauto.
    + destruct Ma as (Wf & Wb & _), Sa as (bs & E & Fn). apply (im_not_bit s f bit bs false); auto.
    + destruct Ma as (Wf & ty & names & z & n & E0 & Nt & Su), Sa as (ty' & names' & n' & E & Nt'). pose proof (Sh f) as Sf. rewrite E0, E in Sf. destruct Sf as [<- <-].
      assert (n' = n) as -> by (eapply number_text_det; eauto).
      assert (imeans s (CExpr (T "%" ++ f) (T "=") r) (num_holds REq n n)) as Q by (eapply im_num; eauto; vm_compute; tauto).
      cbn [num_holds] in Q. rewrite Z.eqb_refl in Q. exact Q.
  - inversion As as [| | |? ls F2]; subst. inversion Li as [|? ? N Ln Fl]; subst.
    assert (Forall2 (imeans s) cs (map (fun _ => true) cs)) as F.
    { clear As Li N Ln. revert IH Fl M S. induction F2 as [|c x cs ls Ac F2 IHF]; intros IH Fl M S; [constructor|].
      cbn [concat] in M, S. apply Forall_app in M as [M1 M2]. apply Forall_app in S as [S1 S2]. inversion IH as [|? ? Hc IH']; subst. inversion Fl as [|? ? Lc Fl']; subst.
      constructor; [eapply Hc; eauto|]. now apply IHF. }
    assert (forallb (fun b => b) (map (fun _ : cond => true) cs) = true) as Eb by (clear; induction cs; [reflexivity|exact IHcs]).
    pose proof (im_and s cs _ N Ln F) as Q. rewrite Eb in Q. exact Q.
Qed.
Lemma sets_det s c s1 s2 : sets s c s1 -> sets s c s2 -> s1 = s2.
Proof.
  intros A B. inversion A as [? f n bs bit b F1 N1|? f n ty names z lit m y F1 C1 V1]; subst; inversion B as [? f' n' bs' bit' b' F2 N2|? f' n' ty' names' z' lit' m' y' F2 C2 V2]; subst;
    destruct (the_field_det _ _ _ _ _ _ F1 F2) as [<- E].
  - injection E as <-. reflexivity.
  - injection E as <- <- <-. pose proof (constant_det _ _ _ C1 C2) as E. subst m'. pose proof (converted_det _ _ _ _ V1 V2) as E. subst y'. reflexivity.
Qed.
Lemma sets_all_det cs : forall s s1 s2, sets_all s cs s1 -> sets_all s cs s2 -> s1 = s2.
Proof.
  induction cs as [|c cs IH]; intros s s1 s2 A B.
  - inversion A; subst. inversion B; subst. reflexivity.
  - inversion A as [|? x ? ? ? A1 A2]; subst. inversion B as [|? y ? ? ? B1 B2]; subst. rewrite (sets_det _ _ _ _ A1 B1) in A2. eapply IH; eauto.
Qed.
