(** Expressions of generated conditions. *)
From Coq Require Import Lia.
From Verif.Model Require Import Base Common Xml Units Field FieldCommon IntField OptCond GenUtil GenComms CommsInt CommsCond.
From Verif.Spec Require Import Texts Ints FieldSpec GenSpec CppSpec CondCode CondTyping.
From Verif.Proofs Require Import BaseFacts CommonFacts IntFacts FieldInv GenFacts TemplateFacts CommsIntFacts CondCodeFacts CondTextFacts.
Local Open Scope string_scope.
Local Open Scope Z_scope.
Local Open Scope list_scope.

(** ** The prefix is only put in front *)
Definition hom (K : txt -> txt) : Prop :=
  (exists x, forall p, K p = p ++ x) \/ (forall p, K p = unexpected) \/ (forall p, K p = []).
Lemma hom_shift K s : hom K -> hom (fun p => K (p ++ s)).
Proof. intros [(x & H) | [H | H]]; [left; exists (s ++ x); intro p; rewrite H; now rewrite app_assoc|right; left; auto|right; right; auto]. Qed.
Lemma hom_const x : hom (fun p => p ++ x). Proof. left. now exists x. Qed.
Lemma hom_ext K K' : (forall p, K p = K' p) -> hom K' -> hom K.
Proof. intros E [(x & H) | [H | H]]; [left; exists x|right; left|right; right]; intro p; rewrite E; auto. Qed.
Lemma hom_step K (none : txt) ge up f acc mem inner ms : (forall p : txt, none = unexpected) ->
  (forall m up acc, In m ms -> hom (K up m acc)) ->
  hom (fun p => step K none ge up f acc p mem inner ms).
Proof.
  intros Hn H. unfold step. destruct (first_seg acc) as [first rest].
  destruct (find (fun m => str_eqb (f_name m) first) ms) as [m|] eqn:F.
  - apply find_some in F as [I _]. apply (hom_shift (K (velem_of f :: up) m (rest_or_nil rest))). now apply H.
  - right. left. intro p. now apply Hn.
Qed.
Lemma value_hom ge f : forall up acc, hom (value_access ge up f acc).
Proof.
  induction f as [f IH] using field_ind'. intros up acc. apply hom_ext with (K' := fun p => vbody ge up f acc (p ++ vo ge up f (L ".field()"))).
  { intro p. apply value_eq. } apply (hom_shift (vbody ge up f acc)). change (hom (fun p => vbody ge up f acc p)). rewrite Forall_forall in IH.
  destruct f; cbn [vbody]; try apply hom_const; try (destruct (is_nil acc); [apply hom_const|]).
  - destruct (assoc acc (s_bits s)); [apply hom_const|right; left; reflexivity].
  - apply hom_step; [reflexivity|]. intros; now apply IH.
  - apply hom_step; [reflexivity|]. intros; now apply IH.
  - apply IH. now left.
  - apply (hom_shift (value_access ge _ f (rem_acc acc))). apply IH. now left.
Qed.
Lemma size_hom ge f : forall up acc, hom (size_access ge up f acc).
Proof.
  induction f as [f IH] using field_ind'. intros up acc. apply hom_ext with (K' := fun p => sbody ge up f acc (p ++ vo ge up f (L ".field()"))).
  { intro p. apply size_eq. } apply (hom_shift (sbody ge up f acc)). change (hom (fun p => sbody ge up f acc p)). rewrite Forall_forall in IH.
  destruct f; cbn [sbody]; try apply hom_const; try (right; right; reflexivity); try (destruct (is_nil acc); [right; right; reflexivity|]).
  - apply hom_step; [reflexivity|]. intros; now apply IH.
  - apply hom_step; [reflexivity|]. intros; now apply IH.
  - apply IH. now left.
  - apply (hom_shift (size_access ge _ f (rem_acc acc))). apply IH. now left.
Qed.
Lemma cast_hom ge f : forall up acc, hom (cast_type ge up f acc).
Proof.
  induction f as [f IH] using field_ind'. intros up acc. apply hom_ext with (K' := fun p => cbody ge up f acc (p ++ vo ge up f (L "Field::"))).
  { intro p. apply cast_eq. } apply (hom_shift (cbody ge up f acc)). change (hom (fun p => cbody ge up f acc p)). rewrite Forall_forall in IH.
  destruct f; cbn [cbody]; try apply hom_const; try (right; right; reflexivity); try (destruct (is_nil acc); [apply hom_const|]).
  - apply hom_step; [reflexivity|]. intros; now apply IH.
  - apply hom_step; [reflexivity|]. intros; now apply IH.
  - apply IH. now left.
  - apply (hom_shift (cast_type ge _ f (rem_acc acc))). apply IH. now left.
Qed.
(** a result that starts like an access path or a class is not one of the constants *)
Definition starts_f (t : txt) : Prop := exists r, t = "f"%char :: r \/ t = "F"%char :: r.
Lemma acc_starts a x : starts_f (print_acc a ++ x).
Proof. revert x. induction a as [y|a IH y|a IH]; intro x; cbn [print_acc]; rewrite <- ?app_assoc; [eexists; left; reflexivity|apply IH|apply IH]. Qed.
Lemma class_starts a x : starts_f (print_class a ++ x).
Proof. revert x. induction a as [y|a IH y|a IH]; intro x; cbn [print_class]; rewrite <- ?app_assoc; [eexists; right; reflexivity|apply IH|apply IH]. Qed.
Lemma hom_use K p t : hom K -> K p = t -> starts_f t -> p ++ K [] = t.
Proof.
  intros [(x & H) | [H | H]] E (r & S); rewrite H in *; [exact E| |]; subst t; exfalso; destruct S; discriminate.
Qed.

(** ** Existence checks *)
Lemma reach_split env path pres w : from env path pres w ->
  exists n q v, path = n :: q /\ first_named n env = Some v /\ reach v q pres w.
Proof.
  intros [R N]. inversion R as [| | | | | | | |ms n v q b w' F R0]; subst; [congruence|]. exists n, q, v. auto.
Qed.
Lemma env_find ge up fs env n v : typed_env ge up fs env -> first_named n env = Some v ->
  exists m, find_named n fs = Some m /\ f_name m = n /\ typed ge up m v.
Proof.
  intro F. induction F as [|m [k x] fs env [E Tm] F IH]; cbn [first_named]; [discriminate|]. cbn [fst snd] in *. subst k.
  unfold find_named. cbn [find]. destruct (list_eq_dec ascii_dec (f_name m) n) as [E|N].
  - intros [= <-]. exists m. rewrite (proj2 (str_eqb_eq _ _) E). auto.
  - destruct (str_eqb (f_name m) n) eqn:X; [apply str_eqb_eq in X; congruence|]. exact IH.
Qed.
(** what the generator finds for a reference *)
Inductive resolved ce env (w : dval) (pres : bool) (tail : list txt) (o : operand) : Prop :=
| Resolved va sa ca oc lf : found env (ce_gen ce) w pres (join (T ".") tail) va sa ca oc lf ->
  value_access (ce_gen ce) (op_up o) (op_field o) (op_acc o) (op_prefix o) = va ->
  size_access (ce_gen ce) (op_up o) (op_field o) (op_acc o) (op_prefix o) = sa ->
  cast_type (ce_gen ce) (op_up o) (op_field o) (op_acc o) (op_type_prefix o ++ T "::") = ca ->
  op_checks (ce_gen ce) o = oc -> acc_leaf (op_field o) (op_acc o) = lf ->
  op_type_prefix o = T "Field_" ++ genAccessName (f_name (op_field o)) ->
  resolved ce env w pres tail o.
Lemma resolve ce up sibs env path pres w tail : typed_env (ce_gen ce) up sibs env -> accessible (VMembers env) ->
  from env path pres w -> Forall word path ->
  exists o, find_operand ce up sibs OSibling (join (T ".") (path ++ tail)) = Some o /\ resolved ce env w pres tail o.
Proof.
  intros Te Ac Fr Wp. destruct (reach_split _ _ _ _ Fr) as (n & q & v & -> & Fn & R). inversion Wp as [|? ? Wn Wq]; subst.
  destruct (env_find _ _ _ _ _ _ Te Fn) as (m & Fm & Nm & Tm).
  unfold find_operand. cbn [app]. rewrite word_seg by exact Wn. rewrite Fm. cbn [option_map]. rewrite rest_join.
  eexists. split; [reflexivity|].
  assert (obj env (AField (genAccessName n)) v) as O by (constructor; apply accessed_first; auto using word_nonnil).
  pose proof (walk env (ce_gen ce) m up v q pres w (AField (genAccessName n)) tail Tm (accessible_first _ _ _ Ac Fn) R O Wq (access_word _ Wn)) as G.
  cbv zeta in G. rewrite <- Nm in G.
  econstructor; cbn [op_field op_up op_acc op_prefix op_type_prefix op_iface]; try reflexivity. unfold op_checks, op_prefix, op_type_prefix.
  cbn [op_field op_up op_acc op_iface]. exact G.
Qed.

(** ** Reading the operands *)
Lemma words_head path tail : Forall word path -> path <> [] -> exists c r, join (T ".") (path ++ tail) = c :: r /\ (letter_or_underscore c \/ dec_digit c).
Proof.
  intros F N. destruct path as [|n q]; [congruence|]. inversion F as [|? ? [Nn Fn] _]; subst. destruct n as [|c n]; [congruence|].
  inversion Fn as [|? ? Hc _]; subst. destruct (q ++ tail) eqn:E; cbn [app]; rewrite ?E; cbn [join app]; eauto.
Qed.
Lemma word_char_not c : letter_or_underscore c \/ dec_digit c -> forall d, In d (T "#?$%^! .-+'()<>:@") -> c <> d.
Proof.
  intros H d I ->. revert H. vm_compute in I.
  repeat (destruct I as [<- | I]; [intros [H | H]; vm_compute in H; intuition discriminate|]). destruct I.
Qed.
Lemma word_char_neqb c : letter_or_underscore c \/ dec_digit c -> forall d, In d (T "#?$%^! .-+'()<>:@") -> ch_eqb c d = false.
Proof. intros H d I. destruct (ch_eqb c d) eqn:E; [|reflexivity]. apply Ascii.eqb_eq in E. exfalso. exact (word_char_not c H d I E). Qed.
Lemma info_value path tail : Forall word path -> path <> [] ->
  operand_info ("$"%char :: join (T ".") (path ++ tail)) = (OSibling, MNone, join (T ".") (path ++ tail)).
Proof.
  intros F N. destruct (words_head path tail F N) as (c & r & -> & H). unfold operand_info.
  change (negb (ch_eqb "$" c_sibling) && negb (ch_eqb "$" c_interface)) with false. change (ch_eqb "$" c_sibling) with true. cbn iota.
  rewrite (word_char_neqb c H "#"), (word_char_neqb c H "?"); [reflexivity| |]; vm_compute; tauto.
Qed.
Lemma info_size s : operand_info ("$"%char :: "#"%char :: s) = (OSibling, MSize, s). Proof. reflexivity. Qed.
Lemma info_exists s : operand_info ("$"%char :: "?"%char :: s) = (OSibling, MExists, s). Proof. reflexivity. Qed.
Lemma info_plain c s : c <> "$"%char -> c <> "%"%char -> operand_info (c :: s) = (OValue, MNone, c :: s).
Proof.
  intros A B. unfold operand_info. destruct (ch_eqb c c_sibling) eqn:E; [apply Ascii.eqb_eq in E; contradiction|].
  destruct (ch_eqb c c_interface) eqn:E'; [apply Ascii.eqb_eq in E'; contradiction|]. reflexivity.
Qed.
Lemma denotes_head s n : denotes s n -> exists c r, s = c :: r /\ c <> "$"%char /\ c <> "%"%char /\ ~ letter_or_underscore c.
Proof.
  assert (forall b ds k, b <= 16 -> b <= 10 -> numeral b ds k -> exists c r, ds = c :: r /\ dec_digit c) as ND.
  { intros b ds k _ Hb N. induction N as [c v D|ds c k v N IH D].
    - exists c, []. split; [reflexivity|]. destruct D as [Hv [D | D]].
      + assert (v < 10) by lia. apply nth_error_In with (n := Z.to_nat v). change (T "0123456789abcdef") with (T "0123456789" ++ T "abcdef") in D.
        rewrite nth_error_app1 in D by (change (length (T "0123456789")) with 10%nat; lia). exact D.
      + assert (v < 10) by lia. apply nth_error_In with (n := Z.to_nat v). change (T "0123456789ABCDEF") with (T "0123456789" ++ T "ABCDEF") in D.
        rewrite nth_error_app1 in D by (change (length (T "0123456789")) with 10%nat; lia). exact D.
    - destruct IH as (c' & r & -> & Hc); auto. exists c', (r ++ [c]). auto. }
  assert (forall c, dec_digit c -> c <> "$"%char /\ c <> "%"%char /\ ~ letter_or_underscore c) as DC.
  { intros c I. unfold dec_digit in I. vm_compute in I.
    repeat (destruct I as [<- | I]; [split; [discriminate|]; split; [discriminate|]; intro H; vm_compute in H; intuition discriminate|]). destruct I. }
  assert (forall c, space c -> c <> "$"%char /\ c <> "%"%char /\ ~ letter_or_underscore c) as SC.
  { intros c I. repeat split; intros E; try (subst c; vm_compute in I; intuition discriminate).
    unfold letter_or_underscore in E. vm_compute in E. 
    repeat (destruct E as [<- | E]; [vm_compute in I; intuition discriminate|]). destruct E. }
  assert (forall u k, unsigned_literal u k -> exists c r, u = c :: r /\ dec_digit c) as UL.
  { intros u k H. inversion H as [x ds rest m Hx Nm _|ds rest m Nm _ _|ds rest m Nm _ _]; subst.
    - exists "0"%char. eexists. split; [reflexivity|]. vm_compute. tauto.
    - exists "0"%char. eexists. split; [reflexivity|]. vm_compute. tauto.
    - destruct (ND 10 ds k ltac:(lia) ltac:(lia) Nm) as (c & r & -> & Hc). exists c, (r ++ rest). auto. }
  intro D. assert (exists ws u k t, s = ws ++ t /\ Forall space ws /\ unsigned_literal u k /\ (t = u \/ t = "+"%char :: u \/ t = "-"%char :: u)) as (ws & u & k & t & -> & Fs & U & Ht).
  { inversion D; subst; eauto 12. }
  destruct ws as [|c ws].
  - destruct (UL _ _ U) as (c & r & -> & Hc). destruct Ht as [-> | [-> | ->]]; cbn [app]; eexists; eexists; (split; [reflexivity|]).
    + auto.
    + repeat split; try discriminate. intro H; vm_compute in H; intuition discriminate.
    + repeat split; try discriminate. intro H; vm_compute in H; intuition discriminate.
  - inversion Fs; subst. exists c, (ws ++ t). split; [reflexivity|auto].
Qed.
Lemma identifier_head s : identifier s -> exists c r, s = c :: r /\ letter_or_underscore c.
Proof. intros [[N _] (c & E & H)]. destruct s as [|d r]; [discriminate|]. injection E as ->. eauto. Qed.
Lemma identifier_no_number s n : identifier s -> denotes s n -> False.
Proof.
  intros I D. destruct (identifier_head _ I) as (c & r & -> & H). destruct (denotes_head _ _ D) as (c' & r' & E & _ & _ & N).
  injection E as -> _. auto.
Qed.

(** ** Numbers *)
Lemma constant_flat s v : constant s v -> flat s.
Proof.
  assert (forall b ds k, numeral b ds k -> flat ds) as NF.
  { intros b ds k N I. apply numeral_chars in N. rewrite Forall_forall in N. specialize (N _ I). vm_compute in N. intuition discriminate. }
  assert (forall d suffix l, candidates d suffix l -> flat suffix) as SF.
  { intros d x l C I. destruct d; destruct C as [[-> _] | [[-> _] | [[-> _] | [-> _]]]]; vm_compute in I; intuition discriminate. }
  assert (forall s t v, literal s t v -> flat s) as LF.
  { intros x t k H I. inversion H; subst.
    - apply in_app_or in I as [I | I]; [eapply NF; eauto|eapply SF; eauto].
    - apply in_app_or in I as [I | I]; [vm_compute in I; intuition discriminate|]. apply in_app_or in I as [I | I]; [eapply NF; eauto|eapply SF; eauto]. }
  intros C I. inversion C; subst; [eapply LF; eauto| |]; (destruct I as [I | I]; [discriminate|eapply LF; eauto]).
Qed.
Lemma cpp_dom ty n : cpp_holds ty n -> - 2 ^ 63 <= n < 2 ^ 64.
Proof.
  intros [(k & I & H) | (k & I & H)]; cbn [In signed_cpp unsigned_cpp] in I;
    repeat (destruct I as [I | I]; [apply pair_equal_spec in I as [_ <-]; unfold signed_bits, unsigned_bits in H; lia|]); destruct I.
Qed.
Lemma converted_self ty n : cpp_holds ty n -> converted ty n n.
Proof. intro H. apply converted_iff; auto. Qed.
Lemma unsigned_cpp_type t len n : is_unsigned_type t = true -> cpp_holds (genCppIntTypeFor t len) n -> 0 <= n.
Proof.
  intros U [(k & I & H) | (k & I & H)].
  - exfalso. destruct t; try discriminate U; unfold genCppIntTypeFor, var_base in I;
    repeat match type of I with context [if ?c then _ else _] => destruct c end;
    vm_compute in I; repeat (destruct I as [I | I]; [discriminate|]); destruct I.
  - cbn [In unsigned_cpp] in I.
    repeat (destruct I as [I | I]; [apply pair_equal_spec in I as [_ <-]; unfold unsigned_bits in H; lia|]); destruct I.
Qed.
Lemma signed_cpp_type t len n : is_unsigned_type t = false -> cpp_holds (genCppIntTypeFor t len) n -> - 2 ^ 63 <= n < 2 ^ 63.
Proof.
  intros U [(k & I & H) | (k & I & H)].
  - cbn [In signed_cpp] in I.
    repeat (destruct I as [I | I]; [apply pair_equal_spec in I as [_ <-]; unfold signed_bits in H; lia|]); destruct I.
  - exfalso. destruct t; try discriminate U; unfold genCppIntTypeFor, var_base in I;
    repeat match type of I with context [if ?c then _ else _] => destruct c end;
    vm_compute in I; repeat (destruct I as [I | I]; [discriminate|]); destruct I.
Qed.
Lemma named_assoc t l names s n : named_values t l names -> first_named s names = Some n ->
  exists v, assoc s l = Some v /\ stands_for t (v_value v) n.
Proof.
  intro F. induction F as [|[k v] [k' m] l names [E S] F IH]; cbn [first_named assoc]; [discriminate|]. cbn [fst snd] in *. subst k'.
  destruct (list_eq_dec ascii_dec k s) as [->|N].
  - intros [= <-]. exists v. rewrite (proj2 (str_eqb_eq _ _) eq_refl). auto.
  - intro H. destruct (IH H) as (v' & A & B). exists v'. split; [|exact B].
    destruct (str_eqb k s) eqn:Q; [apply str_eqb_eq in Q; congruence|exact A].
Qed.
Lemma stands_converted t ty x n : stands_for t x n -> cpp_holds ty n -> converted ty x n.
Proof.
  intros [_ S] H. split; [exact H|]. intros k I. destruct (is_unsigned t).
  - destruct S as [_ S]. assert (exists j, 0 <= j <= 64 /\ k = j) as (j & Hj & ->).
    { cbn [app signed_cpp unsigned_cpp In] in I. exists k. split; [|reflexivity].
      repeat (destruct I as [I | I]; [apply pair_equal_spec in I as [_ <-]; lia|]). destruct I. }
    apply Z.mod_divide in S; [|lia]. destruct S as [q S]. apply Z.mod_divide; [lia|].
    exists (- q * 2 ^ (64 - j)). replace (2 ^ 64) with (2 ^ (64 - j) * 2 ^ j) in S by (rewrite <- Z.pow_add_r by lia; f_equal; lia). lia.
  - subst. rewrite Z.sub_diag. apply Z.mod_0_l. cbn [app signed_cpp unsigned_cpp In] in I.
      repeat (destruct I as [I | I]; [apply pair_equal_spec in I as [_ <-]; lia|]). destruct I.
Qed.
Definition literal_for ty (r : txt) n : Prop := exists m, constant r m /\ converted ty m n.
Lemma prep_number ge ce f acc up ty names z leaf r n : ce_gen ce = ge ->
  acc_leaf f acc = Some leaf -> tbody ge up leaf (VNum ty names z) -> (forall c b t, leaf <> FRef c b t) ->
  number_text names r n -> suits ty r n ->
  exists lit, prep_value (S (length r)) ce f acc r = Ok lit /\ literal_for ty lit n.
Proof.
  intros _ LF Tb NR Nt (Hn & Lo & No & Hi). cbn [prep_value]. rewrite LF.
  assert (is_nil r = false) as Nr.
  { destruct Nt as [D | [I _]]; [destruct (denotes_head _ _ D) as (c & x & -> & _)|destruct (identifier_head _ I) as (c & x & -> & _)]; reflexivity. }
  destruct leaf; try contradiction; try (exfalso; eapply NR; reflexivity).
  - destruct Tb as (-> & _ & Nv). rewrite Nr. destruct Nt as [D | [I F]].
    + destruct (is_unsigned_type (i_type s)) eqn:U.
      * pose proof (unsigned_cpp_type _ _ _ U Hn). pose proof (cpp_dom _ _ Hn).
        assert (stoull r = Some n) as ->.
        { apply stoull_spec. exists n. split; [exact D|]. split; [lia|]. rewrite Z.mod_small; lia. }
        cbn [option_map]. eexists. split; [reflexivity|]. exists n. split; [apply numU_spec; change two64 with (2 ^ 64); lia|now apply converted_self].
      * pose proof (signed_cpp_type _ _ _ U Hn).
        assert (stoll r = Some n) as -> by (apply stoll_spec; auto). cbn [option_map].
        destruct (constant_signed n) as (t & E & C); [change int_min with (- 2 ^ 63); change int_max with (2 ^ 63 - 1); lia|].
        rewrite E. exists t. split; [reflexivity|]. exists n. split; [exact C|now apply converted_self].
    + destruct (named_assoc _ _ _ _ _ Nv F) as (v & A & S).
      assert (stoull r = None) as E1.
      { destruct (stoull r) eqn:E; [|reflexivity]. apply stoull_spec in E as (x & D & _). exfalso. eapply identifier_no_number; eauto. }
      assert (stoll r = None) as E2.
      { destruct (stoll r) eqn:E; [|reflexivity]. apply stoll_spec in E as (D & _). exfalso. eapply identifier_no_number; eauto. }
      rewrite E1, E2. cbn [option_map]. replace (if is_unsigned_type (i_type s) then None else None) with (@None (res str)) by (destruct (is_unsigned_type (i_type s)); reflexivity).
      rewrite A. unfold int_text. change (is_unsigned (i_type s)) with (is_unsigned_type (i_type s)) in S. destruct S as [S64 S].
      destruct (is_unsigned_type (i_type s)) eqn:U; change (is_unsigned (i_type s)) with (is_unsigned_type (i_type s)) in S; rewrite U in S.
      * destruct S as [S1 S2]. assert (to_u64 (v_value v) = n) as ->.
        { unfold to_u64. change two64 with (2 ^ 64). apply Z.mod_divide in S2; [|lia]. destruct S2 as [q S2].
          symmetry. apply Z.mod_unique with (q := - q); [left; lia|lia]. }
        eexists. split; [reflexivity|]. exists n. split; [apply numU_spec; change two64 with (2 ^ 64); lia|now apply converted_self].
      * subst n. pose proof (signed_cpp_type _ _ _ U Hn).
        destruct (constant_signed (v_value v)) as (t & E & C); [change int_min with (- 2 ^ 63); change int_max with (2 ^ 63 - 1); lia|].
        rewrite E. exists t. split; [reflexivity|]. exists (v_value v). split; [exact C|now apply converted_self].
  - destruct Tb as (-> & _ & Nv). unfold enum_value. rewrite Nr. destruct Nt as [D | [I F]].
    + assert (n < 2 ^ 63) by (destruct Hi as [|I]; [assumption|exfalso; eapply identifier_no_number; eauto]).
      assert (stoll r = Some n) as -> by (apply stoll_spec; split; [exact D|lia]).
      destruct (constant_signed n) as (t & E & C); [change int_min with (- 2 ^ 63); change int_max with (2 ^ 63 - 1); lia|].
      rewrite E. exists t. split; [reflexivity|]. exists n. split; [exact C|now apply converted_self].
    + destruct (named_assoc _ _ _ _ _ Nv F) as (v & A & S).
      assert (stoll r = None) as ->.
      { destruct (stoll r) eqn:E; [|reflexivity]. apply stoll_spec in E as (D & _). exfalso. eapply identifier_no_number; eauto. }
      rewrite A. assert (v_value v <> - 2 ^ 63) as Nm.
      { intro E. destruct S as [_ S]. destruct (is_unsigned (en_type s)).
        - destruct S as [S1 S2]. apply Z.mod_divide in S2; [|lia]. destruct S2 as [q S2]. rewrite E in S2. lia.
        - lia. }
      destruct (constant_signed (v_value v)) as (t & E & C).
      { destruct S as [S _]. change int_min with (- 2 ^ 63); change int_max with (2 ^ 63 - 1). lia. }
      rewrite E. exists t. split; [reflexivity|]. exists (v_value v). split; [exact C|]. eapply stands_converted; eauto.
Qed.
