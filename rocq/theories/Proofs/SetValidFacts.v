(** The body of valid() of generated set fields. *)
From Coq Require Import Lia Sorted Permutation ZifyBool ZifyNat.
From Verif.Model Require Import Base Common Xml Units Field FieldCommon IntField SetField GenUtil GenComms CommsInt CommsSet.
From Verif.Spec Require Import Texts Ints Versions IntSpec EnumSpec GenSpec NameSpec CppSpec CondCode BodySpec TokenSpec.
From Verif.Proofs Require Import BaseFacts CommonFacts IntFacts RangeFacts IntInv EnumInv GenFacts TemplateFacts CommsIntFacts CommsOptFacts TokenFacts FactoryFacts EnumGenFacts EnumValidFacts SetFacts.
From Verif.Spec Require Import SetCode.
From Verif.Props Require Import PTemplate PCondCode.
Local Open Scope string_scope. Local Open Scope Z_scope. Local Open Scope list_scope.

(** ** The text *)
Definition key_stmt (e : Z * Z * (Z * Z)) : stmt :=
  let '((since, depr), (mask, value)) := e in
  let f := genNumToStringU since 0 in let u := genNumToStringU depr 0 in
  If (And (if since =? 0 then From u else if not_deprecated <=? depr then Before f else Or (Before f) (From u))
          (Differs (genNumToStringU mask 1) (genNumToStringU value 1))) [ReturnFalse].
Lemma key_text_code e t : key_text e = Ok t -> tokens t = tokens (stmt_code (key_stmt e)).
Proof.
  destruct e as [[since depr] [mask value]]. unfold key_text, key_stmt. cbv zeta.
  set (f := genNumToStringU since 0). set (u := genNumToStringU depr 0). set (m := genNumToStringU mask 1). set (r := genNumToStringU value 1).
  clearbody f u m r. intros H. destruct (since =? 0); [|destruct (not_deprecated <=? depr)].
  - eapply template_of in H; [|vm_compute; reflexivity]. rewrite H. clear H.
    transitivity (tokens (T "if ((" ++ u ++ (T " <= Base::getVersion()) &&" ++ [nl] ++ T "    ((Base::getValue() & ") ++ m ++ T ") != " ++ r ++ (T ")) {" ++ [nl] ++ T "    return false;" ++ [nl] ++ T "}" ++ [nl]))); [reflexivity|].
    cbn [stmt_code paren test_code map concat]. rewrite ?app_nil_r. same.
  - eapply template_of in H; [|vm_compute; reflexivity]. rewrite H. clear H.
    transitivity (tokens (T "if ((Base::getVersion() < " ++ f ++ (T ") &&" ++ [nl] ++ T "    ((Base::getValue() & ") ++ m ++ T ") != " ++ r ++ (T ")) {" ++ [nl] ++ T "    return false;" ++ [nl] ++ T "}" ++ [nl]))); [reflexivity|].
    cbn [stmt_code paren test_code map concat]. rewrite ?app_nil_r. same.
  - eapply template_of in H; [|vm_compute; reflexivity]. rewrite H. clear H.
    transitivity (tokens (T "if (((Base::getVersion() < " ++ f ++ T ") || (" ++ u ++ (T " <= Base::getVersion())) && " ++ [nl] ++ T "    ((Base::getValue() & ") ++ m ++ T ") != " ++ r ++ (T ")) {" ++ [nl] ++ T "    return false;" ++ [nl] ++ T "}" ++ [nl]))); [reflexivity|].
    cbn [stmt_code paren test_code map concat]. rewrite ?app_nil_r. same.
Qed.
Definition gap_stmt (r : Z * Z) : stmt := If (And (From (genNumToStringU (fst r) 0)) (Before (genNumToStringU (snd r) 0))) [ReturnFalse].
Lemma gap_text_code r t : gap_text r = Ok t -> tokens t = tokens (stmt_code (gap_stmt r)).
Proof.
  unfold gap_text, gap_stmt. set (f := genNumToStringU (fst r) 0). set (u := genNumToStringU (snd r) 0). clearbody f u. intros H.
  eapply template_of in H; [|vm_compute; reflexivity]. rewrite H. clear H.
  transitivity (tokens (T "if ((" ++ f ++ (T " <= Base::getVersion()) &&" ++ [nl] ++ T "    (Base::getVersion() < ") ++ u ++ (T ")) {" ++ [nl] ++ T "    return false;" ++ [nl] ++ T "}"))); [reflexivity|].
  cbn [stmt_code paren test_code map concat]. rewrite ?app_nil_r. same.
Qed.
Lemma stmt_ends s : ends (stmt_code s) = true.
Proof.
  destruct s as [|p body]; [reflexivity|]. cbn [stmt_code]. rewrite !app_assoc. match goal with |- ends (?a ++ T "} ") = _ => apply (ends_snoc a (T "}") " "%char) end.
Qed.
Lemma stmts_tokens l : tokens (concat (map stmt_code l)) = flat_map (fun t => tokens (stmt_code t)) l.
Proof. induction l as [|t ts IH]; [reflexivity|]. cbn [map concat flat_map]. now rewrite tokens_l, IH by apply stmt_ends. Qed.
Lemma stmts_ends l : ends (concat (map stmt_code l)) = true.
Proof. induction l as [|g gs IH]; [reflexivity|]. cbn [map concat]. apply ends_cat; [apply stmt_ends|exact IH]. Qed.
Lemma F2_tokens {A} (f : A -> res str) (g : A -> stmt) l ts : (forall a t, f a = Ok t -> tokens t = tokens (stmt_code (g a))) -> mapM f l = Ok ts ->
  flat_map tokens ts = flat_map (fun t => tokens (stmt_code t)) (map g l).
Proof.
  intros K H. apply mapM_Forall2 in H. induction H as [|a t l ts H _ IH]; [reflexivity|]. cbn [flat_map map]. rewrite IH. f_equal. now apply K.
Qed.
Definition rep_stmts (c : common) (s : set_state) (idx : Z) : list stmt :=
  match filter (fun x => b_idx (snd x) =? idx) (s_bits s) with
  | [] => []
  | x :: _ =>
      if is_nil (repeated_gaps c s idx) then []
      else [If (Differs (genNumToStringU (bit_mask idx) 1) (genNumToStringU (if b_reservedValue (snd x) then bit_mask idx else 0) 1)) (map gap_stmt (repeated_gaps c s idx))]
  end.
Lemma mapM_nil {A B} (f : A -> res B) l m : mapM f l = Ok m -> is_nil m = is_nil l.
Proof. intros H. apply mapM_Forall2 in H. now inversion H. Qed.
Lemma rep_text_code c s idx ts : repeated_text c s idx = Ok ts -> flat_map tokens ts = flat_map (fun t => tokens (stmt_code t)) (rep_stmts c s idx) /\ is_nil ts = is_nil (rep_stmts c s idx).
Proof.
  unfold repeated_text, rep_stmts. destruct (filter _ (s_bits s)) as [|x l]; [discriminate|]. clear l. intros H. apply bind_Ok in H as (gs & Hg & H).
  rewrite (mapM_nil _ _ _ Hg) in H. destruct (is_nil (repeated_gaps c s idx)); [apply Ok_inj in H as <-; auto|].
  apply bind_Ok in H as (t & H & E). apply Ok_inj in E as <-. split; [|reflexivity].
  pose proof (F2_tokens _ gap_stmt _ _ gap_text_code Hg) as Eg. rewrite <- list2_tokens, <- stmts_tokens in Eg.
  cbn [flat_map stmt_code paren test_code]. rewrite !app_nil_r.
  set (C := genStrListToString gs [nl; nl] []) in *. pose proof (stmts_ends (map gap_stmt (repeated_gaps c s idx))) as N. set (G := concat (map stmt_code (map gap_stmt (repeated_gaps c s idx)))) in *.
  set (m := genNumToStringU (bit_mask idx) 1) in *. set (r := genNumToStringU (if b_reservedValue (snd x) then bit_mask idx else 0) 1) in *. clearbody C G m r. clear Hg.
  eapply template_of in H; [|vm_compute; reflexivity]. rewrite H. clear H.
  transitivity (tokens (T "if ((Base::getValue() & " ++ m ++ T ") != " ++ r ++ (T ") {" ++ [nl] ++ T "    ") ++ C ++ ([nl] ++ T "}" ++ [nl]))); [reflexivity|].
  rewrite <- !app_assoc. cuts. rewrite ?(tokens_l G) by exact N. rewrite Eg. same.
Qed.
Definition body_stmts (c : common) (s : set_state) (k : checks) : list stmt := map key_stmt (checked_keys k) ++ flat_map (rep_stmts c s) (ck_bits k).
Lemma list1_tokens l : tokens (genStrListToString l [nl] []) = flat_map tokens l.
Proof.
  induction l as [|x l IH]; [reflexivity|]. destruct l as [|y l].
  - cbn [genStrListToString flat_map]. now rewrite !app_nil_r.
  - change (genStrListToString (x :: y :: l) [nl] []) with (x ++ nl :: genStrListToString (y :: l) [nl] []).
    change (flat_map tokens (x :: y :: l)) with (tokens x ++ flat_map tokens (y :: l)). rewrite <- IH. set (z := genStrListToString _ _ _). clearbody z. clear.
    rewrite (tokens_r x (nl :: z)) by reflexivity. reflexivity.
Qed.
Lemma valid_body_code ge c s t : set_check ge s = true -> set_valid_body ge c s = Ok t ->
  exists k, set_checks ge c s = Ok k /\ ((t = [] /\ body_stmts c s k = []) \/ (body_stmts c s k <> [] /\ tokens t = tokens (reject_code (body_stmts c s k)))).
Proof.
  intros Ck H. unfold set_valid_body in H. rewrite Ck in H. cbn [negb] in H. apply bind_Ok in H as (k & Hk & H). exists k. split; [exact Hk|]. clear Hk.
  apply bind_Ok in H as (l1 & H1 & H). apply bind_Ok in H as (l2 & H2 & H).
  pose proof (F2_tokens _ key_stmt _ _ key_text_code H1) as E1. pose proof (mapM_nil _ _ _ H1) as N1. clear H1.
  assert (K2 : flat_map tokens (concat l2) = flat_map (fun t => tokens (stmt_code t)) (flat_map (rep_stmts c s) (ck_bits k)) /\ is_nil (concat l2) = is_nil (flat_map (rep_stmts c s) (ck_bits k))).
  { apply mapM_Forall2 in H2. clear E1 N1 H. induction H2 as [|a ts l l2 H _ [IH1 IH2]]; [auto|]. apply rep_text_code in H as [A B]. cbn [concat flat_map].
    rewrite !flat_map_app, A, IH1. split; [reflexivity|]. destruct ts, (rep_stmts c s a); try discriminate B; [exact IH2|reflexivity]. }
  destruct K2 as [E2 N2]. clear H2.
  assert (E : flat_map tokens (l1 ++ concat l2) = flat_map (fun t => tokens (stmt_code t)) (body_stmts c s k)) by (unfold body_stmts; rewrite !flat_map_app, E1, E2; reflexivity).
  assert (N : is_nil (l1 ++ concat l2) = is_nil (body_stmts c s k)).
  { unfold body_stmts. destruct l1, (checked_keys k); try discriminate N1; [exact N2|reflexivity]. }
  rewrite N in H. destruct (is_nil (body_stmts c s k)) eqn:Z.
  - left. apply Ok_inj in H as <-. split; [reflexivity|]. now destruct (body_stmts c s k).
  - right. split; [now destruct (body_stmts c s k)|]. rewrite <- list1_tokens, <- stmts_tokens in E. unfold reject_code.
    pose proof (stmts_ends (body_stmts c s k)) as En. set (G := concat (map stmt_code (body_stmts c s k))) in *. set (C := genStrListToString (l1 ++ concat l2) [nl] []) in *.
    clearbody C G. clear -H E En. eapply template_of in H; [|vm_compute; reflexivity]. rewrite H. clear H.
    transitivity (tokens ((T "if (!Base::valid()) {" ++ [nl] ++ T "    return false;" ++ [nl] ++ T "}" ++ [nl; nl]) ++ C ++ ([nl] ++ T "return true;" ++ [nl]))); [reflexivity|].
    rewrite (tokens_l (T "if (!Base::valid()) { return false; } ")) by reflexivity. rewrite (tokens_l G) by exact En. rewrite <- E. clear E En. same.
Qed.

(** ** Its meaning *)
Lemma test_det v w p a b : test_value v w p a -> test_value v w p b -> a = b.
Proof.
  intros H. revert b. induction H as [a x C|a x C|m r x y C D|p q a a' H IH H' IH'|p q a a' H IH H' IH']; intros b' B; inversion B; subst.
  - now rewrite (constant_det _ _ _ C H0).
  - now rewrite (constant_det _ _ _ C H0).
  - match goal with C1 : constant m ?x1, C2 : constant r ?y1 |- _ = negb (_ =? ?y1) => now rewrite (constant_det _ _ _ C C1), (constant_det _ _ _ D C2) end.
  - f_equal; auto.
  - f_equal; auto.
Qed.
Lemma returns_det v w l a b : returns v w l a -> returns v w l b -> a = b.
Proof.
  intros H. revert b. induction H as [|l|p body l a b c Tv H IH H' IH']; intros b' B; inversion B; subst; try reflexivity.
  match goal with X : test_value v w p ?a1, Y : returns v w body ?b1, Z : returns v w l ?c1 |- _ => now rewrite (test_det _ _ _ _ _ Tv X), (IH _ Y), (IH' _ Z) end.
Qed.
Definition key_rej (v w : Z) (e : Z * Z * (Z * Z)) : bool :=
  ((w <? fst (fst e)) || (snd (fst e) <=? w)) && negb (Z.land v (fst (snd e)) =? snd (snd e)).
Definition key_small (e : Z * Z * (Z * Z)) : Prop :=
  0 <= fst (fst e) < two64 /\ 0 <= snd (fst e) < two64 /\ 0 <= fst (snd e) < two64 /\ 0 <= snd (snd e) < two64.
Lemma key_returns v w e l b : 0 <= w < never -> key_small e -> returns v w l b -> returns v w (key_stmt e :: l) (key_rej v w e || b).
Proof.
  destruct e as [[since depr] [mask value]]. unfold key_small, key_rej, key_stmt. cbn [fst snd]. intros Hw (A & B & C & D) R.
  assert (Tv : test_value v w (And (if since =? 0 then From (genNumToStringU depr 0) else if not_deprecated <=? depr then Before (genNumToStringU since 0) else Or (Before (genNumToStringU since 0)) (From (genNumToStringU depr 0)))
      (Differs (genNumToStringU mask 1) (genNumToStringU value 1))) (((w <? since) || (depr <=? w)) && negb (Z.land v mask =? value))).
  { constructor; [|constructor; apply constant_unsigned; lia]. unfold never in Hw. change not_deprecated with 4294967295. destruct (since =? 0) eqn:E0; [|destruct (4294967295 <=? depr) eqn:E1].
    - replace ((w <? since) || (depr <=? w)) with (depr <=? w) by lia. constructor. now apply numU_spec.
    - replace ((w <? since) || (depr <=? w)) with (w <? since) by lia. constructor. now apply numU_spec.
    - constructor; constructor; now apply numU_spec. }
  pose proof (ret_if v w _ [ReturnFalse] l _ true b Tv (ret_now v w []) R) as Q. rewrite andb_true_r in Q. exact Q.
Qed.
Definition gap_rej (w : Z) (r : Z * Z) : bool := (fst r <=? w) && (w <? snd r).
Definition pair_small (r : Z * Z) : Prop := 0 <= fst r < two64 /\ 0 <= snd r < two64.
Lemma gap_returns v w gs : Forall pair_small gs -> returns v w (map gap_stmt gs) (existsb (gap_rej w) gs).
Proof.
  induction 1 as [|r gs [A B] _ IH]; [constructor|]. cbn [map existsb].
  assert (Tv : test_value v w (And (From (genNumToStringU (fst r) 0)) (Before (genNumToStringU (snd r) 0))) (gap_rej w r)).
  { constructor; constructor; now apply numU_spec. }
  pose proof (ret_if v w _ [ReturnFalse] _ _ true _ Tv (ret_now v w []) IH) as Q. rewrite andb_true_r in Q. exact Q.
Qed.
Definition rep_rej (c : common) (s : set_state) (v w idx : Z) : bool :=
  match filter (fun x => b_idx (snd x) =? idx) (s_bits s) with
  | [] => false
  | x :: _ => negb (Z.land v (bit_mask idx) =? (if b_reservedValue (snd x) then bit_mask idx else 0)) && existsb (gap_rej w) (repeated_gaps c s idx)
  end.
Lemma bit_mask_small idx : 0 <= idx < 64 -> 0 <= bit_mask idx < two64.
Proof.
  intros H. unfold bit_mask. rewrite Z.shiftl_1_l. assert (2 ^ idx < 2 ^ 64) by (apply Z.pow_lt_mono_r; lia). pose proof (Z.pow_pos_nonneg 2 idx). unfold two64. lia.
Qed.
Lemma rep_returns c s v w idx l b : 0 <= idx < 64 -> Forall pair_small (repeated_gaps c s idx) -> returns v w l b ->
  returns v w (rep_stmts c s idx ++ l) (rep_rej c s v w idx || b).
Proof.
  intros Hi F R. unfold rep_stmts, rep_rej. destruct (filter _ (s_bits s)) as [|x xs]; [exact R|]. clear xs. pose proof (bit_mask_small idx Hi) as M.
  destruct (is_nil (repeated_gaps c s idx)) eqn:E.
  - destruct (repeated_gaps c s idx); [|discriminate]. cbn [existsb app]. rewrite andb_false_r. exact R.
  - cbn [app]. apply ret_if; [|apply gap_returns; exact F|exact R]. constructor; apply constant_unsigned; [exact M|lia|destruct (b_reservedValue (snd x)); unfold two64 in *; lia|lia].
Qed.
Lemma body_returns c s k v w : 0 <= w < never -> Forall key_small (checked_keys k) -> Forall (fun i => 0 <= i < 64 /\ Forall pair_small (repeated_gaps c s i)) (ck_bits k) ->
  returns v w (body_stmts c s k) (existsb (key_rej v w) (checked_keys k) || existsb (rep_rej c s v w) (ck_bits k)).
Proof.
  intros Hw F1 F2. unfold body_stmts. induction F1 as [|e l He _ IH]; cbn [map existsb app orb].
  - induction F2 as [|i l [Hi Hg] _ IH]; [constructor|]. cbn [flat_map existsb]. apply rep_returns; assumption.
  - rewrite <- orb_assoc. apply key_returns; assumption.
Qed.

(** ** What is checked *)
Definition key_of (x : str * bit_info) : Z * Z := (b_since (snd x), b_depr (snd x)).
Definition key_lt (a b : Z * Z) : Prop := key_ltb a b = true.
Lemma key_ltb_cases a b : (key_ltb a b = true /\ a <> b /\ key_ltb b a = false) \/ (key_ltb b a = true /\ a <> b /\ key_ltb a b = false) \/ (a = b /\ key_ltb a b = false /\ key_ltb b a = false).
Proof.
  destruct a as [a1 a2], b as [b1 b2]. unfold key_ltb. cbn [fst snd].
  destruct (Z.lt_trichotomy a1 b1) as [H|[H|H]]; [left; split; [lia|split; [intros E; inversion E; lia|lia]]| |right; left; split; [lia|split; [intros E; inversion E; lia|lia]]].
  destruct (Z.lt_trichotomy a2 b2) as [H'|[H'|H']]; [left; split; [lia|split; [intros E; inversion E; lia|lia]]|right; right; subst; split; [reflexivity|lia]|right; left; split; [lia|split; [intros E; inversion E; lia|lia]]].
Qed.
Lemma key_lt_trans a b c : key_lt a b -> key_lt b c -> key_lt a c.
Proof. unfold key_lt, key_ltb. lia. Qed.
Definition set_bits (idx : Z) (rv : bool) (m : Z * Z) : Z * Z := (with_bit true (fst m) idx, if rv then with_bit true (snd m) idx else snd m).
Notation entry := (Z * Z * (Z * Z))%type.
Lemma add_check_spec key idx rv (l : list entry) : StronglySorted (fun a b => key_lt (fst a) (fst b)) l ->
  StronglySorted (fun a b => key_lt (fst a) (fst b)) (add_check key idx rv l) /\
  (forall e, In e (add_check key idx rv l) <-> (fst e <> key /\ In e l) \/
     (fst e = key /\ exists m, snd e = set_bits idx rv m /\ (In (key, m) l \/ (m = (0, 0) /\ forall e', In e' l -> fst e' <> key)))).
Proof.
  induction 1 as [|[k m] l Sl IH F].
  - cbn [add_check]. split; [repeat constructor|]. intros e. split.
    + intros [<-|[]]. right. split; [reflexivity|]. exists (0, 0). split; [reflexivity|]. right. split; [reflexivity|intros ? []].
    + intros [[_ []]|[E (m & Em & [[]|[-> _]])]]. left. destruct e. cbn [fst snd] in *. subst. reflexivity.
  - cbn [add_check]. fold (set_bits idx rv (0, 0)). fold (set_bits idx rv m). rewrite Forall_forall in F.
    destruct (key_ltb_cases key k) as [(A & B & C)|[(A & B & C)|(A & B & C)]]; [rewrite A|rewrite C, A|rewrite B, C].
    + assert (Lt : forall e, In e ((k, m) :: l) -> key_lt key (fst e)).
      { intros e [<-|I]; [exact A|]. eapply key_lt_trans; [exact A|]. exact (F _ I). }
      assert (Ne : forall e, In e ((k, m) :: l) -> fst e <> key).
      { intros e I E. specialize (Lt e I). unfold key_lt in Lt. rewrite E in Lt. destruct (key_ltb_cases key key) as [(_ & Q & _)|[(_ & Q & _)|(_ & Q & _)]]; congruence. }
      split; [constructor; [constructor; [exact Sl|now rewrite Forall_forall]|]; rewrite Forall_forall; exact Lt|].
      intros e. split.
      * intros [<-|I]; [right; split; [reflexivity|]; exists (0, 0); split; [reflexivity|right; auto]|left; auto].
      * intros [[_ I]|[E (m' & Em & [I|[-> _]])]]; [now right|destruct (Ne _ I eq_refl)|]. left. destruct e. cbn [fst snd] in *. subst. reflexivity.
    + destruct IH as [IH1 IH2]. split.
      * constructor; [exact IH1|]. rewrite Forall_forall. intros e I. apply IH2 in I as [[_ I]|[E _]]; [now apply F|]. rewrite E. exact A.
      * intros e. split.
        -- intros [<-|I]; [left; split; [cbn [fst]; congruence|now left]|]. apply IH2 in I as [[N I]|[E (m' & Em & [I|[-> N]])]]; [left; split; [exact N|now right]| |].
           ++ right. split; [exact E|]. exists m'. split; [exact Em|]. left. now right.
           ++ right. split; [exact E|]. exists (0, 0). split; [exact Em|]. right. split; [reflexivity|]. intros e' [<-|I]; [cbn [fst]; congruence|auto].
        -- intros [[N [<-|I]]|[E (m' & Em & K)]]; [now left|right; apply IH2; left; auto|]. right. apply IH2. right. split; [exact E|]. exists m'. split; [exact Em|].
           destruct K as [[K|K]|[-> K]]; [inversion K; congruence|now left|right; split; [reflexivity|]; intros e' I; apply K; now right].
    + subst k. assert (Ne : forall e, In e l -> fst e <> key).
      { intros e I E. specialize (F e I). unfold key_lt in F. cbn [fst] in F. rewrite E in F. congruence. }
      split; [constructor; [exact Sl|now rewrite Forall_forall]|]. intros e. split.
      * intros [<-|I]; [right; split; [reflexivity|]; exists m; split; [reflexivity|left; now left]|left; split; [now apply Ne|now right]].
      * intros [[N [<-|I]]|[E (m' & Em & K)]]; [cbn [fst] in N; congruence|now right|]. left.
        destruct K as [[K|K]|[-> K]]; [|destruct (Ne _ K eq_refl)|destruct (K (key, m) (or_introl eq_refl)); reflexivity].
        inversion K; subst m'. destruct e. cbn [fst snd] in *. subst. reflexivity.
Qed.
Definition bits_at (X : list (str * bit_info)) (j : Z) : list (str * bit_info) := filter (fun x => b_idx (snd x) =? j) X.
Definition pair_eqb (a b : Z * Z) : bool := (fst a =? fst b) && (snd a =? snd b).
Lemma pair_eqb_iff a b : pair_eqb a b = true <-> a = b.
Proof. destruct a, b. unfold pair_eqb. cbn [fst snd]. rewrite andb_true_iff, !Z.eqb_eq. split; [intros [-> ->]; reflexivity|intros E; inversion E; auto]. Qed.
Record checked (X : list (str * bit_info)) (k : checks) : Prop := {
  kx_idx : Forall (fun x => 0 <= b_idx (snd x) < 64) X;
  kx_sorted : StronglySorted (fun a b : entry => key_lt (fst a) (fst b)) (ck_map k);
  kx_from : forall e, In e (ck_map k) -> (exists x, In x X /\ key_of x = fst e) /\ 0 <= fst (snd e) /\ 0 <= snd (snd e) /\
    forall j, 0 <= j -> Z.testbit (fst (snd e)) j = existsb (fun x => pair_eqb (key_of x) (fst e) && (b_idx (snd x) =? j)) X /\
      Z.testbit (snd (snd e)) j = existsb (fun x => pair_eqb (key_of x) (fst e) && (b_idx (snd x) =? j) && b_reservedValue (snd x)) X;
  kx_to : forall x, In x X -> exists m, In (key_of x, m) (ck_map k);
  kx_all : 0 <= ck_all k /\ forall j, 0 <= j -> Z.testbit (ck_all k) j = existsb (fun x => b_idx (snd x) =? j) X;
  kx_rep : 0 <= ck_rep k /\ forall j, 0 <= j -> Z.testbit (ck_rep k) j = (2 <=? length (bits_at X j))%nat;
  kx_bits : forall j, In j (ck_bits k) <-> 0 <= j /\ Z.testbit (ck_rep k) j = true }.
Lemma with_true_nonneg m i : 0 <= m -> 0 <= i -> 0 <= with_bit true m i.
Proof. intros. unfold with_bit. apply Z.lor_nonneg. split; [assumption|]. unfold bit_mask. now apply Z.shiftl_nonneg. Qed.
Lemma land_mask_zero m i : 0 <= m -> 0 <= i -> (Z.land m (bit_mask i) =? 0) = negb (Z.testbit m i).
Proof.
  intros Hm Hi. assert (B : forall k, 0 <= k -> Z.testbit (Z.land m (bit_mask i)) k = Z.testbit m k && (k =? i)) by (intros k Hk; rewrite Z.land_spec, testbit_mask by assumption; reflexivity).
  destruct (Z.testbit m i) eqn:E; cbn [negb].
  - apply Z.eqb_neq. intros Z. specialize (B i Hi). rewrite Z, Z.bits_0, E, Z.eqb_refl in B. discriminate.
  - apply Z.eqb_eq. apply Z.bits_inj'. intros k Hk. rewrite B, Z.bits_0 by assumption. destruct (Z.eqb_spec k i) as [-> |]; [now rewrite E|apply andb_false_r].
Qed.
Lemma bits_at_snoc X x j : bits_at (X ++ [x]) j = bits_at X j ++ (if b_idx (snd x) =? j then [x] else []).
Proof. unfold bits_at. rewrite filter_app. cbn [filter]. now destruct (b_idx (snd x) =? j). Qed.
Lemma existsb_snoc {A} (p : A -> bool) l x : existsb p (l ++ [x]) = existsb p l || p x.
Proof. rewrite existsb_app. cbn [existsb]. now rewrite orb_false_r. Qed.
Lemma lor_with m i : Z.lor m (bit_mask i) = with_bit true m i.
Proof. reflexivity. Qed.
Lemma existsb_bits X j : existsb (fun x : str * bit_info => b_idx (snd x) =? j) X = (1 <=? length (bits_at X j))%nat.
Proof. unfold bits_at. induction X as [|x X IH]; [reflexivity|]. cbn [existsb filter]. destruct (b_idx (snd x) =? j); cbn [orb length]; [reflexivity|exact IH]. Qed.
Definition sel (ge : gen_env) (c : common) (x : str * bit_info) : bool := limited c (snd x) && genDoesElementExist (ge_ver ge) (b_since (snd x)) (b_depr (snd x)) false.
Lemma checked_step ge c X k x k' : checked X k -> 0 <= b_idx (snd x) -> check_step ge c k x = Ok k' -> checked (if sel ge c x then X ++ [x] else X) k'.
Proof.
  intros C Hi H. unfold check_step in H. unfold sel. destruct (limited c (snd x)); cbn [negb andb] in *; [|apply Ok_inj in H as <-; exact C].
  destruct (genDoesElementExist _ _ _ _); cbn [negb] in H; [|apply Ok_inj in H as <-; exact C].
  unfold max_bits in H. destruct (64 <=? b_idx (snd x)) eqn:E64; [discriminate|]. apply Ok_inj in H as <-.
  destruct C as [C1 C2 C3 C4 [C5 C5'] [C6 C6'] C7]. set (i := b_idx (snd x)) in *.
  destruct (add_check_spec (b_since (snd x), b_depr (snd x)) i (b_reservedValue (snd x)) (ck_map k) C2) as [A1 A2]. fold (key_of x) in *.
  rewrite !land_mask_zero by assumption. rewrite (C5' i Hi), (C6' i Hi), existsb_bits, !negb_involutive.
  assert (Rep : forall j, 0 <= j -> Z.testbit (if (1 <=? length (bits_at X i))%nat && negb (2 <=? length (bits_at X i))%nat then with_bit true (ck_rep k) i else ck_rep k) j = (2 <=? length (bits_at (X ++ [x]) j))%nat).
  { intros j Hj. rewrite bits_at_snoc. fold i. rewrite app_length. destruct ((1 <=? length (bits_at X i))%nat && negb (2 <=? length (bits_at X i))%nat) eqn:R.
    - rewrite testbit_with by assumption. destruct (Z.eqb_spec j i) as [-> |N].
      + rewrite Z.eqb_refl. cbn [length]. lia.
      + replace (i =? j) with false by lia. cbn [length]. rewrite C6' by assumption. f_equal. lia.
    - rewrite C6' by assumption. destruct (Z.eqb_spec i j) as [<-|N]; cbn [length]; lia. }
  constructor; cbn [ck_map ck_all ck_rep ck_bits].
  - apply Forall_app. split; [exact C1|]. constructor; [fold i; lia|constructor].
  - exact A1.
  - intros e I. apply A2 in I as [[N I]|[E (m & Em & K)]].
    + destruct (C3 e I) as ((y & Iy & Ey) & M1 & M2 & M3). split; [exists y; split; [apply in_or_app; now left|exact Ey]|]. split; [exact M1|]. split; [exact M2|].
      intros j Hj. destruct (M3 j Hj) as [M4 M5]. rewrite !existsb_snoc, M4, M5. replace (pair_eqb (key_of x) (fst e)) with false.
      * cbn [andb]. now rewrite !orb_false_r.
      * symmetry. apply not_true_iff_false. rewrite pair_eqb_iff. congruence.
    + split; [exists x; split; [apply in_or_app; right; now left|now symmetry]|].
      assert (Km : 0 <= fst m /\ 0 <= snd m /\ forall j, 0 <= j -> Z.testbit (fst m) j = existsb (fun x => pair_eqb (key_of x) (fst e) && (b_idx (snd x) =? j)) X /\
        Z.testbit (snd m) j = existsb (fun x => pair_eqb (key_of x) (fst e) && (b_idx (snd x) =? j) && b_reservedValue (snd x)) X).
      { destruct K as [I|[-> N]].
        - destruct (C3 _ I) as (_ & M1 & M2 & M3). cbn [fst snd] in *. rewrite E. auto.
        - cbn [fst snd]. split; [lia|]. split; [lia|]. intros j Hj. rewrite Z.bits_0.
          assert (Q : forall y, In y X -> pair_eqb (key_of y) (fst e) = false).
          { intros y I. apply not_true_iff_false. rewrite pair_eqb_iff, E. intros Ey. destruct (C4 y I) as (m' & I'). apply (N _ I'). exact Ey. }
          split; symmetry; apply not_true_iff_false; intros B; apply existsb_exists in B as (y & I & B); rewrite (Q y I) in B; discriminate. }
      destruct Km as (K1 & K2 & K3). rewrite Em. unfold set_bits. cbn [fst snd]. split; [now apply with_true_nonneg|].
      split; [destruct (b_reservedValue (snd x)); [now apply with_true_nonneg|exact K2]|].
      intros j Hj. destruct (K3 j Hj) as [K4 K5]. rewrite !existsb_snoc. replace (pair_eqb (key_of x) (fst e)) with true by (symmetry; rewrite pair_eqb_iff; congruence).
      cbn [andb]. fold i. rewrite <- K4, <- K5. rewrite testbit_with by assumption. rewrite (Z.eqb_sym j i).
      split; [destruct (i =? j); [now rewrite orb_true_r|now rewrite orb_false_r]|].
      destruct (b_reservedValue (snd x)); rewrite ?andb_true_r, ?andb_false_r, ?orb_false_r; [|reflexivity].
      rewrite testbit_with by assumption. rewrite (Z.eqb_sym j i). destruct (i =? j); [now rewrite orb_true_r|now rewrite orb_false_r].
  - intros y I. apply in_app_or in I as [I|[<-|[]]].
    + destruct (C4 y I) as (m & Im). destruct (pair_eqb (key_of y) (key_of x)) eqn:E.
      * apply pair_eqb_iff in E. exists (set_bits i (b_reservedValue (snd x)) m). apply A2. right. cbn [fst snd]. split; [exact E|]. exists m. split; [reflexivity|]. left. now rewrite <- E.
      * exists m. apply A2. left. cbn [fst]. split; [|exact Im]. intros Q. apply pair_eqb_iff in Q. congruence.
    + assert (D : (exists m, In (key_of x, m) (ck_map k)) \/ forall e', In e' (ck_map k) -> fst e' <> key_of x).
      { generalize (ck_map k). intros l. clear. induction l as [|[k0 m0] l [(m & IH)|IH]]; [right; intros ? []|left; exists m; now right|].
        destruct (pair_eqb k0 (key_of x)) eqn:E; [apply pair_eqb_iff in E as ->; left; exists m0; now left|]. right. intros e' [<-|I]; [|auto]. cbn [fst]. intros Q. apply pair_eqb_iff in Q. congruence. }
      destruct D as [(m & I)|N]; eexists; apply A2; right; cbn [fst snd]; (split; [reflexivity|]); eexists; (split; [reflexivity|]); [left; exact I|right; auto].
  - split; [rewrite lor_with; now apply with_true_nonneg|]. intros j Hj. rewrite lor_with, testbit_with, existsb_snoc by assumption. fold i. rewrite (Z.eqb_sym j i), C5' by assumption.
    destruct (i =? j); [now rewrite orb_true_r|now rewrite orb_false_r].
  - rewrite lor_with. split; [destruct (_ && _); [now apply with_true_nonneg|exact C6]|exact Rep].
  - intros j. rewrite lor_with. destruct ((1 <=? length (bits_at X i))%nat && negb (2 <=? length (bits_at X i))%nat) eqn:R; [|apply C7].
    rewrite in_app_iff, C7. cbn [In]. split.
    + intros [[Hj B]|[<-|[]]]; (split; [lia|]); rewrite testbit_with by lia; [rewrite B; now destruct (j =? i)|now rewrite Z.eqb_refl].
    + intros [Hj B]. rewrite testbit_with in B by lia. destruct (Z.eqb_spec j i) as [-> |N]; [right; now left|left; auto].
Qed.
Lemma checks_spec ge c l k : Forall (fun x => 0 <= b_idx (snd x)) l -> foldM (check_step ge c) l (mkChecks [] 0 0 []) = Ok k -> checked (filter (sel ge c) l) k.
Proof.
  intros F H. assert (K : forall l X k0 k, Forall (fun x => 0 <= b_idx (snd x)) l -> checked X k0 -> foldM (check_step ge c) l k0 = Ok k -> checked (X ++ filter (sel ge c) l) k).
  { clear. induction l as [|x l IH]; intros X k0 k F C H; cbn [foldM] in H; [apply Ok_inj in H as <-; cbn [filter]; now rewrite app_nil_r|].
    inversion F as [|? ? F1 F2]; subst. apply bind_Ok in H as (k1 & H1 & H). pose proof (checked_step _ _ _ _ _ _ C F1 H1) as C1. specialize (IH _ _ _ F2 C1 H).
    cbn [filter]. destruct (sel ge c x); [now rewrite <- app_assoc in IH|exact IH]. }
  apply (K l [] (mkChecks [] 0 0 []) k F); [|exact H]. constructor; cbn; try (intros; contradiction); try (split; [lia|intros; apply Z.bits_0]); try constructor.
  - contradiction.
  - intros [_ B]. rewrite Z.bits_0 in B. discriminate.
Qed.

(** ** The versions without a bit *)
Lemma gaps_spec l : Forall (fun r => fst r < snd r) l -> StronglySorted (fun a b => fst a <= fst b /\ snd a <= snd b) l ->
  forall prev w, (forall r, In r l -> prev <= snd r) ->
  ((exists r, In r (fst (gaps prev l)) /\ fst r <= w < snd r) \/ snd (gaps prev l) <= w) <-> prev <= w /\ forall r, In r l -> ~ fst r <= w < snd r.
Proof.
  intros F Ss. induction Ss as [|[a d] l Ss IH Fs]; intros prev w P; cbn [gaps].
  - cbn [fst snd]. split; [intros [(r & [] & _)|H]; split; [exact H|intros ? []]|intros [H _]; now right].
  - inversion F as [|? ? F1 F2]; subst. cbn [fst snd] in F1. rewrite Forall_forall in Fs. cbn [fst snd] in Fs.
    destruct (gaps d l) as [g p] eqn:E. cbn [fst snd]. specialize (IH F2 d w). rewrite E in IH. cbn [fst snd] in IH.
    assert (Pd : forall r, In r l -> d <= snd r) by (intros r I; now destruct (Fs r I)). specialize (IH Pd). pose proof (P (a, d) (or_introl eq_refl)) as Pa. cbn [snd] in Pa. split.
    + intros [(r & [<-|I] & H)|H].
      * cbn [fst snd] in H. split; [lia|]. intros r [<-|I]; [cbn [fst snd]; lia|]. destruct (Fs r I). lia.
      * destruct (proj1 IH (or_introl (ex_intro _ r (conj I H)))) as [A B]. split; [lia|]. intros r' [<-|I']; [cbn [fst snd]; lia|now apply B].
      * destruct (proj1 IH (or_intror H)) as [A B]. split; [lia|]. intros r' [<-|I']; [cbn [fst snd]; lia|now apply B].
    + intros [A B]. pose proof (B (a, d) (or_introl eq_refl)) as Q. cbn [fst snd] in Q. destruct (Z_lt_le_dec w a) as [Lt|Ge].
      * left. exists (prev, a). split; [now left|cbn [fst snd]; lia].
      * destruct (proj2 IH) as [(r & I & H)|H]; [split; [lia|intros r I; apply B; now right]|left; exists r; split; [now right|exact H]|now right].
Qed.
Lemma gaps_bound l x : Forall (fun r => fst r < snd r) l -> (forall r, In r l -> x <= fst r) -> forall prev, x < prev ->
  (forall g, In g (fst (gaps prev l)) -> x < fst g) /\ x < snd (gaps prev l).
Proof.
  induction 1 as [|[a d] l F1 _ IH]; intros B prev P; cbn [gaps]; [split; [intros ? []|exact P]|]. cbn [fst snd] in F1.
  pose proof (B (a, d) (or_introl eq_refl)) as Q. cbn [fst] in Q. destruct (IH (fun r I => B r (or_intror I)) d ltac:(lia)) as [A C]. destruct (gaps d l) as [g p]. cbn [fst snd] in *.
  split; [|exact C]. intros r [<-|I]; [exact P|now apply A].
Qed.
Lemma gaps_sorted l : Forall (fun r => fst r < snd r) l -> StronglySorted (fun a b => fst a <= fst b) l ->
  forall prev, StronglySorted (fun a b => snd a < fst b) (fst (gaps prev l)) /\ (forall g, In g (fst (gaps prev l)) -> snd g < snd (gaps prev l)).
Proof.
  intros F Ss. induction Ss as [|[a d] l Ss IH Fs]; intros prev; cbn [gaps]; [split; [constructor|intros ? []]|].
  inversion F as [|? ? F1 F2]; subst. cbn [fst snd] in F1. rewrite Forall_forall in Fs. cbn [fst] in Fs.
  destruct (gaps_bound l a F2 Fs d ltac:(lia)) as [A B]. destruct (IH F2 d) as [C D]. destruct (gaps d l) as [g p]. cbn [fst snd] in *. split.
  - constructor; [exact C|]. rewrite Forall_forall. exact A.
  - intros r [<-|I]; [exact B|now apply D].
Qed.
Lemma take_next_same this l : (forall r, In r l -> snd this < fst r) -> take_next this l = (this, l).
Proof.
  induction l as [|n l IH]; intros H; [reflexivity|]. cbn [take_next]. pose proof (H n (or_introl eq_refl)) as Q.
  rewrite IH by (intros r I; apply H; now right). replace (snd this <? fst n) with true by lia. now destruct (no_range n).
Qed.
Lemma unify_same l : StronglySorted (fun a b => snd a < fst b) l -> unify_gaps (length l) l = l.
Proof.
  induction 1 as [|r l _ IH F]; [reflexivity|]. cbn [unify_gaps length]. rewrite Forall_forall in F. rewrite take_next_same by exact F. rewrite IH. now destruct (no_range r).
Qed.
Lemma all_gaps_sorted depr l : Forall (fun r => fst r < snd r) l -> StronglySorted (fun a b => fst a <= fst b) l -> StronglySorted (fun a b => snd a < fst b) (all_gaps depr l).
Proof.
  intros F Ss. unfold all_gaps. destruct (gaps_sorted l F Ss 0) as [A B]. destruct (gaps 0 l) as [g p]. cbn [fst snd] in *. destruct (p <? depr); [|exact A].
  clear -A B. induction A as [|r g A IH Fr]; cbn [app]; [repeat constructor|]. constructor; [apply IH; intros x I; apply B; now right|].
  rewrite Forall_forall in *. intros x I. apply in_app_or in I as [I|[<-|[]]]; [now apply Fr|]. cbn [fst]. apply B. now left.
Qed.
Lemma rep_gaps_spec c s idx w : set_inv s -> c_deprecated c <= never -> orderly_bits (c_since c) (c_deprecated c) s -> 0 <= w < c_deprecated c ->
  Forall pair_small (repeated_gaps c s idx) /\
  (existsb (gap_rej w) (repeated_gaps c s idx) = true <-> forall n b, declared_bit s idx n b -> ~ b_since b <= w < b_depr b).
Proof.
  intros Inv Hc [O1 O2] Hw. unfold repeated_gaps. set (l := versions_of s idx).
  assert (Il : forall r, In r l <-> exists n b, declared_bit s idx n b /\ r = (b_since b, b_depr b)).
  { intros r. unfold l, versions_of. rewrite sort_In, in_map_iff. split.
    - intros ([n b] & <- & I). apply filter_In in I as [I E]. cbn [snd] in *. exists n, b. split; [split; [exact I|lia]|reflexivity].
    - intros (n & b & [I E] & ->). exists (n, b). split; [reflexivity|]. apply filter_In. split; [exact I|]. cbn [snd]. lia. }
  assert (Fl : Forall (fun r => fst r < snd r) l).
  { rewrite Forall_forall. intros r I. apply Il in I as (n & b & [I E] & ->). cbn [fst snd]. pose proof (sinv_ok _ Inv) as F. rewrite Forall_forall in F. now destruct (F _ I) as (_ & _ & ?). }
  assert (Sl : StronglySorted (fun a b => fst a <= fst b /\ snd a <= snd b) l).
  { assert (S0 : StronglySorted (fun a b => key_ltb b a = false) l).
    { apply sort_sorted with (P := fun _ => True); [unfold key_ltb; intros; lia|unfold key_ltb; intros; lia|]. apply Forall_forall. auto. }
    assert (K : forall a b, In a l -> In b l -> key_ltb b a = false -> fst a <= fst b /\ snd a <= snd b).
    { intros a b Ia Ib E. apply Il in Ia as (n & x & Dx & ->). apply Il in Ib as (n' & x' & Dx' & ->). unfold key_ltb in E. cbn [fst snd] in *. split; [lia|].
      destruct (list_eq_dec Ascii.ascii_dec n n') as [<-|N].
      - destruct Dx as [I _], Dx' as [I' _]. pose proof (NoDup_assoc _ _ _ (sinv_names _ Inv) I) as Q1. pose proof (NoDup_assoc _ _ _ (sinv_names _ Inv) I') as Q2. assert (x = x') as -> by congruence. lia.
      - destruct (O2 _ _ _ _ _ Dx Dx' N) as (_ & _ & Q). destruct (Z_lt_le_dec (b_since x) (b_since x')); [auto|lia]. }
    clearbody l. clear -S0 K. induction S0 as [|a l S0 IH F]; constructor; [apply IH; intros; apply K; auto; now right|].
    rewrite Forall_forall in *. intros b I. apply K; [now left|now right|now apply F]. }
  assert (S1 : StronglySorted (fun a b => fst a <= fst b) l) by (eapply SSorted_impl; [|exact Sl]; cbn; tauto).
  rewrite unify_same by (apply all_gaps_sorted; assumption).
  assert (Bl : forall r, In r l -> 0 <= fst r <= never /\ 0 <= snd r <= never).
  { intros r I. pose proof Fl as F. rewrite Forall_forall in F. specialize (F r I). apply Il in I as (n & b & D & ->). cbn [fst snd] in *. destruct (O1 _ _ _ D). lia. }
  assert (Bg : forall l prev, (forall r, In r l -> 0 <= fst r <= never /\ 0 <= snd r <= never) -> 0 <= prev <= never ->
     (forall g, In g (fst (gaps prev l)) -> 0 <= fst g <= never /\ 0 <= snd g <= never) /\ 0 <= snd (gaps prev l) <= never).
  { clear. induction l as [|[a d] l IH]; intros prev B P; cbn [gaps]; [split; [intros ? []|exact P]|]. destruct (B (a, d) (or_introl eq_refl)) as [B1 B2]. cbn [fst snd] in *.
    destruct (IH d (fun r I => B r (or_intror I)) B2) as [Q1 Q2]. destruct (gaps d l) as [g p]. cbn [fst snd] in *. split; [|exact Q2]. intros r [<-|I]; [cbn [fst snd]; lia|now apply Q1]. }
  destruct (Bg l 0 Bl ltac:(unfold never; lia)) as [Q1 Q2].
  assert (Gs := gaps_spec l Fl Sl 0 w (fun r I => proj1 (proj2 (Bl r I)))).
  assert (Ag : forall r, In r (all_gaps (c_deprecated c) l) <-> In r (fst (gaps 0 l)) \/ (snd (gaps 0 l) < c_deprecated c /\ r = (snd (gaps 0 l), c_deprecated c))).
  { intros r. unfold all_gaps. destruct (gaps 0 l) as [g p]. cbn [fst snd]. destruct (p <? c_deprecated c) eqn:E; [rewrite in_app_iff; cbn [In]|]; split.
    - intros [I|[<-|[]]]; [now left|right; split; [lia|reflexivity]].
    - intros [I|[_ ->]]; auto.
    - auto.
    - intros [I|[I _]]; [exact I|lia]. }
  split.
  - rewrite Forall_forall. intros r I. apply filter_In in I as [I _]. apply Ag in I. unfold pair_small, two64, never in *. destruct I as [I|[I ->]]; [destruct (Q1 r I); lia|cbn [fst snd]; lia].
  - rewrite existsb_exists. transitivity (0 <= w /\ forall r, In r l -> ~ fst r <= w < snd r).
    + rewrite <- Gs. split.
      * intros (r & I & H). apply filter_In in I as [I _]. unfold gap_rej in H. apply Ag in I as [I|[I ->]]; [left; exists r; split; [exact I|lia]|]. right. cbn [fst snd] in H. lia.
      * intros [(r & I & H)|H].
        -- exists r. split; [|unfold gap_rej; lia]. apply filter_In. split; [apply Ag; now left|]. unfold no_range. lia.
        -- exists (snd (gaps 0 l), c_deprecated c). split; [|unfold gap_rej; cbn [fst snd]; lia]. apply filter_In. split; [apply Ag; right; split; [lia|reflexivity]|]. unfold no_range. cbn [fst snd]. lia.
    + split.
      * intros [_ H] n b D. apply (H (b_since b, b_depr b)). apply Il. eauto.
      * intros H. split; [lia|]. intros r I. apply Il in I as (n & b & D & ->). cbn [fst snd]. exact (H n b D).
Qed.

(** ** What the body asks of the bits *)
Lemma NoDup_two {A} (l : list A) : NoDup l -> (2 <= length l)%nat -> exists x y, In x l /\ In y l /\ x <> y.
Proof.
  intros N H. destruct l as [|x [|y l]]; cbn [length] in H; [lia|lia|]. exists x, y. split; [now left|]. split; [right; now left|]. inversion N as [|? ? N1 _]; subst. intros ->. apply N1. now left.
Qed.
Lemma two_length {A} (l : list A) x y : In x l -> In y l -> x <> y -> (2 <= length l)%nat.
Proof.
  intros Ix Iy N. destruct l as [|a [|b l]]; [destruct Ix| |cbn [length]; lia]. destruct Ix as [<-|[]], Iy as [<-|[]]. congruence.
Qed.
Lemma bits_above a : 0 <= a -> (forall k, 64 <= k -> Z.testbit a k = false) -> a < two64.
Proof.
  intros Ha H. assert (E : a mod 2 ^ 64 = a).
  { apply Z.bits_inj'. intros k Hk. destruct (Z_lt_le_dec k 64); [now rewrite Z.mod_pow2_bits_low by lia|]. rewrite Z.mod_pow2_bits_high by lia. symmetry. now apply H. }
  rewrite <- E. apply Z.mod_pos_bound. reflexivity.
Qed.
Lemma sub_bits v m r : 0 <= v -> 0 <= m -> 0 <= r -> (forall k, 0 <= k -> Z.testbit r k = true -> Z.testbit m k = true) ->
  (Z.land v m = r <-> forall k, 0 <= k -> Z.testbit m k = true -> Z.testbit v k = Z.testbit r k).
Proof.
  intros Hv Hm Hr S. rewrite land_eq_iff by lia. split; intros Q k Hk.
  - intros E. specialize (Q k Hk). rewrite E, andb_true_r in Q. exact Q.
  - specialize (Q k Hk). specialize (S k Hk). destruct (Z.testbit m k); [rewrite andb_true_r; auto|]. rewrite andb_false_r. destruct (Z.testbit r k); [now specialize (S eq_refl)|reflexivity].
Qed.
Lemma body_bits ge c s k v w : set_inv s -> set_checks ge c s = Ok k -> c_deprecated c <= never -> orderly_bits (c_since c) (c_deprecated c) s ->
  0 <= v -> 0 <= w < c_deprecated c -> w <= genSchemaVersion (ge_ver ge) ->
  (returns v w (body_stmts c s k) false <->
   forall n b, In (n, b) (s_bits s) -> sel ge c (n, b) = true -> (forall n' b', declared_bit s (b_idx b) n' b' -> ~ b_since b' <= w < b_depr b') -> Z.testbit v (b_idx b) = b_reservedValue b).
Proof.
  intros Inv Hk Hc O Hv Hw Hver. pose proof O as [O1 O2]. pose proof (checks_spec ge c _ _ (idx_pos s Inv) Hk) as C. set (X := filter (sel ge c) (bits_map s)) in *. clear Hk.
  assert (IX : forall x, In x X <-> In x (s_bits s) /\ sel ge c x = true) by (intros x; unfold X; rewrite filter_In, in_bits_map; reflexivity).
  assert (Nb : NoDup (bits_map s)).
  { eapply Permutation_NoDup; [symmetry; apply sort_perm|]. eapply NoDup_map_inv. exact (sinv_names _ Inv). }
  assert (NX : forall j, NoDup (bits_at X j)) by (intros j; unfold bits_at, X; now apply NoDup_filter, NoDup_filter).
  assert (Nm : forall n b b', In (n, b) (s_bits s) -> In (n, b') (s_bits s) -> b = b').
  { intros n b b' I I'. pose proof (NoDup_assoc _ _ _ (sinv_names _ Inv) I) as Q1. pose proof (NoDup_assoc _ _ _ (sinv_names _ Inv) I') as Q2. congruence. }
  destruct C as [C1 C2 C3 C4 _ [C6 C6'] C7]. rewrite Forall_forall in C1.
  assert (IA : forall x j, In x (bits_at X j) <-> In x X /\ b_idx (snd x) = j) by (intros x j; unfold bits_at; rewrite filter_In, Z.eqb_eq; reflexivity).
  (* what is left of an element of the map *)
  assert (Kin : forall e, In e (checked_keys k) -> exists x, In x X /\ key_of x = fst e /\ (length (bits_at X (b_idx (snd x))) < 2)%nat /\ 0 <= fst (snd e) /\ 0 <= snd (snd e) /\
     forall j, 0 <= j -> Z.testbit (fst (snd e)) j = existsb (fun x => pair_eqb (key_of x) (fst e) && (b_idx (snd x) =? j)) X && (length (bits_at X j) <? 2)%nat /\
       Z.testbit (snd (snd e)) j = existsb (fun x => pair_eqb (key_of x) (fst e) && (b_idx (snd x) =? j) && b_reservedValue (snd x)) X && (length (bits_at X j) <? 2)%nat).
  { intros e I. unfold checked_keys in I. apply filter_In in I as [I Nz].
    assert (Ie : exists e0, In e0 (ck_map k) /\ fst e0 = fst e /\ 0 <= fst (snd e) /\ 0 <= snd (snd e) /\ forall j, 0 <= j -> Z.testbit (fst (snd e)) j = Z.testbit (fst (snd e0)) j && negb (Z.testbit (ck_rep k) j) /\
       Z.testbit (snd (snd e)) j = Z.testbit (snd (snd e0)) j && negb (Z.testbit (ck_rep k) j)).
    { destruct (ck_rep k =? 0) eqn:E0.
      - exists e. destruct (C3 e I) as (_ & M1 & M2 & _). split; [exact I|]. split; [reflexivity|]. split; [exact M1|]. split; [exact M2|]. intros j Hj.
        replace (ck_rep k) with 0 by lia. rewrite Z.bits_0. cbn [negb]. now rewrite !andb_true_r.
      - apply in_map_iff in I as (e0 & <- & I). destruct (C3 e0 I) as (_ & M1 & M2 & _). exists e0. unfold without_repeated. cbn [fst snd]. split; [exact I|]. split; [reflexivity|].
        split; [apply Z.ldiff_nonneg; now left|]. split; [apply Z.ldiff_nonneg; now left|]. intros j Hj. now rewrite !Z.ldiff_spec. }
    destruct Ie as (e0 & I0 & Ef & P1 & P2 & B). destruct (C3 e0 I0) as (_ & _ & _ & M). rewrite Ef in M.
    assert (B' : forall j, 0 <= j -> Z.testbit (fst (snd e)) j = existsb (fun x => pair_eqb (key_of x) (fst e) && (b_idx (snd x) =? j)) X && (length (bits_at X j) <? 2)%nat /\
       Z.testbit (snd (snd e)) j = existsb (fun x => pair_eqb (key_of x) (fst e) && (b_idx (snd x) =? j) && b_reservedValue (snd x)) X && (length (bits_at X j) <? 2)%nat).
    { intros j Hj. destruct (B j Hj) as [B1 B2]. destruct (M j Hj) as [M1 M2]. rewrite B1, B2, M1, M2, C6' by exact Hj.
      replace (negb (2 <=? length (bits_at X j))%nat) with (length (bits_at X j) <? 2)%nat by lia. auto. }
    assert (Z : exists j, 0 <= j /\ Z.testbit (fst (snd e)) j = true).
    { destruct (Z_lt_le_dec 0 (fst (snd e))) as [Lt|Ge].
      - exists (Z.log2 (fst (snd e))). split; [apply Z.log2_nonneg|now apply Z.bit_log2].
      - exfalso. lia. }
    destruct Z as (j & Hj & Z). destruct (B' j Hj) as [B1 _]. rewrite Z in B1. symmetry in B1. apply andb_true_iff in B1 as [B1 B2]. apply existsb_exists in B1 as (x & Ix & Q).
    apply andb_true_iff in Q as [Q1 Q2]. apply pair_eqb_iff in Q1. exists x. replace (b_idx (snd x)) with j by lia. repeat split; auto; lia || apply B'; assumption. }
  assert (Kto : forall x, In x X -> (length (bits_at X (b_idx (snd x))) < 2)%nat -> exists e, In e (checked_keys k) /\ fst e = key_of x).
  { intros x Ix Ln. destruct (C4 x Ix) as (m & Im). destruct (C1 x Ix) as [Hi _]. destruct (C3 _ Im) as (_ & _ & _ & M). cbn [fst snd] in M. destruct (M _ Hi) as [M1 _].
    assert (Tb : Z.testbit (fst m) (b_idx (snd x)) = true).
    { rewrite M1. apply existsb_exists. exists x. split; [exact Ix|]. apply andb_true_iff. split; [now apply pair_eqb_iff|lia]. }
    assert (Nr : Z.testbit (ck_rep k) (b_idx (snd x)) = false) by (rewrite C6' by exact Hi; lia).
    exists (if ck_rep k =? 0 then (key_of x, m) else without_repeated (ck_rep k) (key_of x, m)). split; [|now destruct (ck_rep k =? 0)].
    unfold checked_keys. apply filter_In. destruct (ck_rep k =? 0).
    - split; [exact Im|]. cbn [fst snd]. destruct (Z.eqb_spec (fst m) 0) as [E|]; [rewrite E, Z.bits_0 in Tb; discriminate|reflexivity].
    - split; [apply in_map_iff; eauto|]. unfold without_repeated. cbn [fst snd]. destruct (Z.eqb_spec (Z.ldiff (fst m) (ck_rep k)) 0) as [E|]; [|reflexivity].
      assert (Q : Z.testbit (Z.ldiff (fst m) (ck_rep k)) (b_idx (snd x)) = true) by (rewrite Z.ldiff_spec, Tb, Nr; reflexivity). rewrite E, Z.bits_0 in Q. discriminate. }
  (* bits of one index *)
  assert (One : forall x, In x X -> (length (bits_at X (b_idx (snd x))) < 2)%nat -> (forall y, In y X -> b_idx (snd y) = b_idx (snd x) -> y = x)).
  { intros x Ix Ln y Iy E. destruct (list_eq_dec Ascii.ascii_dec (fst y) (fst x)) as [En|En].
    - destruct x as [n b], y as [n' b']. cbn [fst snd] in *. subst n'. f_equal. apply IX in Ix as [Ix _], Iy as [Iy _]. exact (Nm n _ _ Iy Ix).
    - exfalso. assert (2 <= length (bits_at X (b_idx (snd x))))%nat; [|lia]. apply (two_length _ x y); [now apply IA|now apply IA|congruence]. }
  assert (Small : Forall key_small (checked_keys k)).
  { rewrite Forall_forall. intros e I. destruct (Kin e I) as ([n b] & Ix & Ek & _ & P1 & P2 & B). unfold key_small. rewrite <- Ek. unfold key_of. cbn [fst snd].
    apply IX in Ix as [Ix _]. destruct (O1 _ n b (conj Ix eq_refl)) as (Q1 & Q2 & _). pose proof (sinv_ok _ Inv) as F. rewrite Forall_forall in F. destruct (F _ Ix) as (_ & _ & Q3). cbn [snd] in Q3.
    assert (Bd : 0 <= b_since b < two64 /\ 0 <= b_depr b < two64) by (unfold never, two64 in *; lia). destruct Bd as [Bd1 Bd2]. split; [exact Bd1|]. split; [exact Bd2|].
    split; (split; [assumption|]); apply bits_above; try assumption; intros j Hj; destruct (B j ltac:(lia)) as [B1 B2]; [rewrite B1|rewrite B2];
      apply andb_false_iff; left; apply not_true_iff_false; intros Ex; apply existsb_exists in Ex as (y & Iy & Q); destruct (C1 y Iy); lia. }
  assert (Rb : Forall (fun i => 0 <= i < 64 /\ Forall pair_small (repeated_gaps c s i)) (ck_bits k)).
  { rewrite Forall_forall. intros i I. apply C7 in I as [Hi I]. rewrite C6' in I by exact Hi. split; [|exact (proj1 (rep_gaps_spec c s i w Inv Hc O Hw))]. split; [exact Hi|].
    destruct (NoDup_two _ (NX i) ltac:(lia)) as (x & _ & Ix & _). apply IA in Ix as [Ix <-]. apply C1. exact Ix. }
  pose proof (body_returns c s k v w ltac:(unfold never in *; lia) Small Rb) as Ret.
  assert (Eq : returns v w (body_stmts c s k) false <-> existsb (key_rej v w) (checked_keys k) = false /\ existsb (rep_rej c s v w) (ck_bits k) = false).
  { rewrite <- orb_false_iff. split; [intros R; exact (returns_det _ _ _ _ _ Ret R)|intros R; now rewrite R in Ret]. }
  rewrite Eq. clear Eq Ret Small Rb.
  assert (E1 : existsb (key_rej v w) (checked_keys k) = false <-> forall x, In x X -> (length (bits_at X (b_idx (snd x))) < 2)%nat -> ~ b_since (snd x) <= w < b_depr (snd x) -> Z.testbit v (b_idx (snd x)) = b_reservedValue (snd x)).
  { rewrite <- not_true_iff_false, existsb_exists. split.
    - intros N x Ix Ln Out. destruct (Kto x Ix Ln) as (e & Ie & Ef). destruct (Kin e Ie) as (_ & _ & _ & _ & P1 & P2 & B). destruct (C1 x Ix) as [Hi _].
      destruct (key_rej v w e) eqn:Rj; [exfalso; apply N; eauto|]. unfold key_rej in Rj. rewrite Ef in Rj. unfold key_of in Rj. cbn [fst snd] in Rj.
      assert (La : Z.land v (fst (snd e)) = snd (snd e)) by lia. rewrite sub_bits in La; [|exact Hv|exact P1|exact P2|].
      + specialize (La (b_idx (snd x)) Hi). destruct (B _ Hi) as [B1 B2]. rewrite La.
        * rewrite B2. replace (length (bits_at X (b_idx (snd x))) <? 2)%nat with true by lia. rewrite andb_true_r. destruct (b_reservedValue (snd x)) eqn:Rv.
          -- apply existsb_exists. exists x. split; [exact Ix|]. rewrite Rv, andb_true_r. apply andb_true_iff. split; [apply pair_eqb_iff; congruence|lia].
          -- apply not_true_iff_false. intros Q. apply existsb_exists in Q as (y & Iy & Q). apply andb_true_iff in Q as [Q Q3]. apply andb_true_iff in Q as [_ Q2].
             rewrite (One x Ix Ln y Iy ltac:(lia)) in Q3. congruence.
        * rewrite B1. apply andb_true_iff. split; [|lia]. apply existsb_exists. exists x. split; [exact Ix|]. apply andb_true_iff. split; [apply pair_eqb_iff; congruence|lia].
      + intros j Hj Q. destruct (B j Hj) as [B1 B2]. rewrite B1. rewrite B2 in Q. apply andb_true_iff in Q as [Q1 Q2]. rewrite Q2, andb_true_r. apply existsb_exists in Q1 as (y & Iy & Q).
        apply existsb_exists. exists y. split; [exact Iy|]. now apply andb_true_iff in Q.
    - intros H (e & Ie & Rj). unfold key_rej in Rj. apply andb_true_iff in Rj as [R1 R2]. destruct (Kin e Ie) as (x0 & Ix0 & Ef & _ & P1 & P2 & B).
      apply negb_true_iff in R2. apply Z.eqb_neq in R2. apply R2. rewrite sub_bits; [|exact Hv|exact P1|exact P2|]; cycle 1.
      + intros j Hj Q. destruct (B j Hj) as [B1 B2]. rewrite B1. rewrite B2 in Q. apply andb_true_iff in Q as [Q1 Q2]. rewrite Q2, andb_true_r. apply existsb_exists in Q1 as (y & Iy & Q).
        apply existsb_exists. exists y. split; [exact Iy|]. now apply andb_true_iff in Q.
      + intros j Hj Q. destruct (B j Hj) as [B1 B2]. rewrite B1 in Q. apply andb_true_iff in Q as [Q1 Q2]. apply existsb_exists in Q1 as (x & Ix & Q). apply andb_true_iff in Q as [Q3 Q4].
        apply pair_eqb_iff in Q3. assert (Ej : b_idx (snd x) = j) by lia. subst j. assert (Ln : (length (bits_at X (b_idx (snd x))) < 2)%nat) by lia.
        rewrite (H x Ix Ln) by (rewrite <- Q3 in R1; unfold key_of in R1; cbn [fst snd] in R1; lia).
        rewrite B2, Q2, andb_true_r. symmetry. destruct (b_reservedValue (snd x)) eqn:Rv.
        * apply existsb_exists. exists x. split; [exact Ix|]. rewrite Rv, andb_true_r. apply andb_true_iff. split; [apply pair_eqb_iff; congruence|lia].
        * apply not_true_iff_false. intros W. apply existsb_exists in W as (y & Iy & W). apply andb_true_iff in W as [W W3]. apply andb_true_iff in W as [_ W2].
          rewrite (One x Ix Ln y Iy ltac:(lia)) in W3. congruence. }
  assert (E2 : existsb (rep_rej c s v w) (ck_bits k) = false <-> forall x, In x X -> (2 <= length (bits_at X (b_idx (snd x))))%nat -> (forall n b, declared_bit s (b_idx (snd x)) n b -> ~ b_since b <= w < b_depr b) -> Z.testbit v (b_idx (snd x)) = b_reservedValue (snd x)).
  { assert (Rj : forall x, In x X -> (2 <= length (bits_at X (b_idx (snd x))))%nat -> (rep_rej c s v w (b_idx (snd x)) = true <->
       Z.testbit v (b_idx (snd x)) <> b_reservedValue (snd x) /\ forall n b, declared_bit s (b_idx (snd x)) n b -> ~ b_since b <= w < b_depr b)).
    { intros x Ix Ln. destruct (C1 x Ix) as [Hi _]. unfold rep_rej. pose proof (proj2 (rep_gaps_spec c s (b_idx (snd x)) w Inv Hc O Hw)) as G.
      destruct (filter (fun y => b_idx (snd y) =? b_idx (snd x)) (s_bits s)) as [|[n0 b0] l] eqn:Fl.
      - exfalso. apply IX in Ix as [Ix _]. assert (Q : In x (filter (fun y => b_idx (snd y) =? b_idx (snd x)) (s_bits s))) by (apply filter_In; split; [exact Ix|lia]). rewrite Fl in Q. destruct Q.
      - assert (Q : In (n0, b0) (filter (fun y => b_idx (snd y) =? b_idx (snd x)) (s_bits s))) by (rewrite Fl; now left). apply filter_In in Q as [I0 E0]. cbn [snd] in *.
        assert (Er : b_reservedValue b0 = b_reservedValue (snd x)).
        { apply IX in Ix as [Ix _]. destruct x as [n b]. cbn [fst snd] in *. destruct (list_eq_dec Ascii.ascii_dec n0 n) as [-> |Nn]; [f_equal; exact (Nm n _ _ I0 Ix)|].
          destruct (O2 (b_idx b) n0 b0 n b ltac:(split; [exact I0|lia]) ltac:(split; [exact Ix|reflexivity]) Nn) as (_ & Q & _). exact Q. }
        rewrite andb_true_iff, G, Er. apply and_iff_compat_r. pose proof (bit_mask_small (b_idx (snd x)) (C1 x Ix)) as M.
        rewrite negb_true_iff, Z.eqb_neq. apply not_iff_compat. rewrite sub_bits; [|exact Hv|lia|destruct (b_reservedValue (snd x)); lia|].
        + split.
          * intros Q. specialize (Q _ Hi). rewrite testbit_mask, Z.eqb_refl in Q by exact Hi. specialize (Q eq_refl). rewrite Q. destruct (b_reservedValue (snd x)); [rewrite testbit_mask by exact Hi; apply Z.eqb_refl|apply Z.bits_0].
          * intros Q j Hj. rewrite testbit_mask by assumption. intros Ej. replace j with (b_idx (snd x)) by lia. rewrite Q. destruct (b_reservedValue (snd x)); [rewrite testbit_mask, Z.eqb_refl by exact Hi; reflexivity|now rewrite Z.bits_0].
        + intros j Hj. destruct (b_reservedValue (snd x)); [auto|rewrite Z.bits_0; discriminate]. }
    rewrite <- not_true_iff_false, existsb_exists. split.
    - intros N x Ix Ln Out. destruct (Bool.bool_dec (Z.testbit v (b_idx (snd x))) (b_reservedValue (snd x))) as [Q|Q]; [exact Q|]. exfalso. apply N. exists (b_idx (snd x)).
      destruct (C1 x Ix) as [Hi _]. split; [apply C7; split; [exact Hi|]; rewrite C6' by exact Hi; lia|]. apply Rj; auto.
    - intros H (i & Ii & R). apply C7 in Ii as [Hi Ii]. rewrite C6' in Ii by exact Hi. destruct (NoDup_two _ (NX i) ltac:(lia)) as (x & _ & Ix & _). apply IA in Ix as [Ix <-].
      apply Rj in R as [R1 R2]; [|exact Ix|lia]. apply R1. apply H; [exact Ix|lia|exact R2]. }
  rewrite E1, E2. clear E1 E2. split.
  - intros [H1 H2] n b I S N. assert (Ix : In (n, b) X) by (apply IX; auto). destruct (le_lt_dec 2 (length (bits_at X (b_idx b)))) as [Ln|Ln].
    + exact (H2 (n, b) Ix Ln N).
    + apply (H1 (n, b) Ix Ln). apply (N n b). split; [exact I|reflexivity].
  - intros H. split.
    + intros [n b] Ix Ln Out. cbn [snd] in *. pose proof Ix as Ix'. apply IX in Ix' as [I S]. apply (H n b I S). intros n' b' [I' E'] P.
      destruct (list_eq_dec Ascii.ascii_dec n n') as [<-|Nn]; [rewrite (Nm n _ _ I' I) in P; exact (Out P)|].
      destruct (O2 (b_idx b) n' b' n b (conj I' E') (conj I eq_refl) ltac:(congruence)) as (Ps & _).
      assert (S' : sel ge c (n', b') = true).
      { unfold sel, limited, genDoesElementExist. cbn [snd andb]. unfold passing in Ps. replace (genSchemaVersion (ge_ver ge) <? b_since b') with false by lia. lia. }
      assert (Q : (n', b') = (n, b)) by (apply (One (n, b) Ix Ln); [apply IX; auto|exact E']). congruence.
    + intros [n b] Ix Ln Out. cbn [snd] in *. apply IX in Ix as [I S]. exact (H n b I S Out).
Qed.
