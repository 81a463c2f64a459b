(** Facts about generated factories, dispatch functions and lists of messages. *)
From Coq Require Import ZifyBool ZifyNat Sorted Permutation.
From Verif.Model Require Import Base Common Field IntField Message Frame Protocol GenUtil GenComms CommsFactory.
From Verif.Spec Require Import Texts Ints GenSpec ProtocolSpec NameSpec TokenSpec FactorySpec.
From Verif.Proofs Require Import BaseFacts CommonFacts IntFacts GenFacts RangeFacts MapFacts ProtocolFacts RefFacts NameFacts MsgFacts TemplateFacts TokenFacts CommsIntFacts.
From Verif.Props Require Import PGen.
Local Open Scope Z_scope.
Local Open Scope list_scope.

(** * Labels *)
Lemma wc_det s v w : constant_with_comment s v -> constant_with_comment s w -> v = w.
Proof.
  assert (N : forall a x, constant a x -> ~ In " "%char a) by (intros a x C; eapply constant_no; [exact C|cbn; tauto]).
  intros [C|(a & b & -> & C & _)] [D|(a' & b' & E & D & _)].
  - eapply constant_det; eauto.
  - exfalso. subst s. apply (N _ _ C). apply in_app_iff. right. now left.
  - exfalso. apply (N _ _ D). apply in_app_iff. right. now left.
  - change (a ++ " "%char :: (T "/* " ++ b ++ T " */") = a' ++ " "%char :: (T "/* " ++ b' ++ T " */")) in E.
    apply cut_unique in E as [-> _]; [|eapply N; eassumption..]. eapply constant_det; eauto.
Qed.
Lemma id_text_spec id : 0 <= id < 2 ^ 64 -> id <> 2 ^ 63 -> exists t, id_text id = Ok t /\ constant_with_comment t (to_s64 id).
Proof.
  intros H N. unfold id_text. apply C35_with_comment. unfold to_s64, two63, two64 in *. change (2 ^ 63) with 9223372036854775808 in *. change (2 ^ 64) with 18446744073709551616 in *.
  rewrite Z.mod_small by lia. destruct (_ <=? _) eqn:E; lia.
Qed.
Lemma id_text_ub : id_text (2 ^ 63) = UB.
Proof. vm_compute. reflexivity. Qed.
Lemma to_s64_inj a b : 0 <= a < 2 ^ 64 -> 0 <= b < 2 ^ 64 -> to_s64 a = to_s64 b -> a = b.
Proof.
  intros Ha Hb. unfold to_s64, two63, two64. change (2 ^ 64) with 18446744073709551616 in *. rewrite !Z.mod_small by lia.
  destruct (9223372036854775808 <=? a) eqn:X; destruct (9223372036854775808 <=? b) eqn:Y; lia.
Qed.
Lemma cast_iff id v : 0 <= id < 2 ^ 64 -> cast_signed id v <-> v = to_s64 id.
Proof.
  intro H. unfold cast_signed, to_s64, two63, two64. change (2 ^ 64) with 18446744073709551616 in *. change (2 ^ 63) with 9223372036854775808 in *.
  rewrite Z.mod_small by lia. split.
  - intros [B [k E]]. destruct (_ <=? _) eqn:L; lia.
  - intros ->. destruct (_ <=? _) eqn:L; (split; [lia|]); [exists (-1)|exists 0]; lia.
Qed.

(** * Grouping by id *)
Definition find_id {A} (id : Z) (g : list (Z * list A)) : list A :=
  match find (fun e => fst e =? id) g with Some e => snd e | None => [] end.
Definition grouped {A} (g : list (Z * list A)) : Prop :=
  StronglySorted (fun a b => fst a < fst b) g /\ Forall (fun e => snd e <> []) g.
Lemma grouped_nil {A} : @grouped A [].
Proof. split; constructor. Qed.
Lemma push_keys {A} id (m : A) g k : In k (map fst (push_id id m g)) <-> k = id \/ In k (map fst g).
Proof.
  induction g as [|[j ms] g IH]; cbn [push_id map fst]; [cbn; intuition|].
  destruct (id <? j); [cbn; intuition|]. destruct (id =? j) eqn:E; cbn [map fst In]; [|rewrite IH; intuition].
  apply Z.eqb_eq in E. intuition congruence.
Qed.
Lemma push_grouped {A} id (m : A) g : grouped g -> grouped (push_id id m g).
Proof.
  intros [S F]. induction g as [|[j ms] g IH]; cbn [push_id].
  - split; repeat constructor. discriminate.
  - inversion S as [|? ? S1 S2]; subst. inversion F as [|? ? F1 F2]; subst. destruct (id <? j) eqn:L.
    + split; [|constructor; [discriminate|constructor; assumption]]. constructor; [exact S|]. constructor; [cbn; lia|].
      eapply Forall_impl; [|exact S2]. cbn. lia.
    + destruct (id =? j) eqn:E.
      * split; [constructor; assumption|constructor; [|assumption]]. cbn. destruct ms; discriminate.
      * destruct (IH S1 F2) as [IH1 IH2]. split; [|constructor; assumption]. constructor; [exact IH1|].
        apply Forall_forall. intros e I. apply (in_map fst), push_keys in I as [->|I]; [cbn; lia|].
        apply in_map_iff in I as (x & <- & I). rewrite Forall_forall in S2. now apply S2.
Qed.
Lemma find_none {A} id (g : list (Z * list A)) : ~ In id (map fst g) -> find_id id g = [].
Proof.
  unfold find_id. induction g as [|[j ms] g IH]; [reflexivity|]. cbn [map fst In find]. intro N.
  destruct (j =? id) eqn:E; [exfalso; lia|]. apply IH. tauto.
Qed.
Lemma push_find {A} id (m : A) g k : grouped g -> find_id k (push_id id m g) = if k =? id then find_id id g ++ [m] else find_id k g.
Proof.
  intros [S _]. induction g as [|[j ms] g IH]; cbn [push_id].
  - unfold find_id. cbn. rewrite Z.eqb_sym. destruct (k =? id); reflexivity.
  - inversion S as [|? ? S1 S2]; subst. destruct (id <? j) eqn:L.
    + destruct (k =? id) eqn:E.
      * apply Z.eqb_eq in E as ->. unfold find_id at 1. cbn [find fst]. rewrite Z.eqb_refl. rewrite find_none; [reflexivity|].
        cbn [map fst In]. intros [X|X]; [lia|]. apply in_map_iff in X as (e & X & I). rewrite Forall_forall in S2. apply S2 in I. cbn in I. lia.
      * unfold find_id. cbn [find fst]. replace (id =? k) with false by lia. reflexivity.
    + destruct (id =? j) eqn:E.
      * apply Z.eqb_eq in E as ->. unfold find_id. cbn [find fst]. rewrite Z.eqb_refl. rewrite (Z.eqb_sym k). destruct (j =? k); reflexivity.
      * specialize (IH S1). unfold find_id in *. cbn [find fst]. destruct (j =? k) eqn:Jk.
        -- replace (k =? id) with false by lia. reflexivity.
        -- rewrite IH. replace (j =? id) with false by lia. reflexivity.
Qed.
Lemma find_In {A} (g : list (Z * list A)) id ms : grouped g -> In (id, ms) g -> find_id id g = ms.
Proof.
  intros [S _] I. induction g as [|[j ns] g IH]; [contradiction|]. inversion S as [|? ? S1 S2]; subst. unfold find_id. cbn [find fst].
  destruct I as [[= -> ->]|I]; [now rewrite Z.eqb_refl|]. rewrite Forall_forall in S2. specialize (S2 _ I). cbn in S2.
  replace (j =? id) with false by lia. now apply IH.
Qed.
Lemma grouped_find {A} (g : list (Z * list A)) id : grouped g ->
  (In (id, find_id id g) g /\ find_id id g <> []) \/ (~ In id (map fst g) /\ find_id id g = []).
Proof.
  intro G. destruct (in_dec Z.eq_dec id (map fst g)) as [I|N]; [left|right; split; [exact N|now apply find_none]].
  apply in_map_iff in I as ([j ms] & <- & I). cbn [fst]. rewrite (find_In _ _ _ G I). split; [exact I|].
  destruct G as [_ F]. rewrite Forall_forall in F. now apply (F _ I).
Qed.
Definition of_id (check : gen_message -> bool) (id : Z) (m : gen_message) : bool := check m && (m_id (snd m) =? id).
Lemma map_messages_spec check l : grouped (map_messages check l) /\
  forall id, find_id id (map_messages check l) = filter (of_id check id) l.
Proof.
  unfold map_messages. induction l as [|m l [G H]] using rev_ind; [split; [apply grouped_nil|reflexivity]|].
  rewrite fold_left_app. cbn [fold_left]. split.
  - destruct (check m); [now apply push_grouped|exact G].
  - intro id. rewrite filter_app. cbn [filter]. unfold of_id at 2. destruct (check m); cbn [andb]; [|now rewrite app_nil_r, H].
    rewrite (push_find _ _ _ _ G). rewrite (Z.eqb_sym id). destruct (m_id (snd m) =? id) eqn:E.
    + apply Z.eqb_eq in E as ->. now rewrite H.
    + now rewrite app_nil_r, H.
Qed.
Lemma map_messages_In check l id ms m : In (id, ms) (map_messages check l) -> In m ms -> In m l /\ check m = true /\ m_id (snd m) = id.
Proof.
  intros I J. destruct (map_messages_spec check l) as [G H]. rewrite <- (find_In _ _ _ G I), H in J. apply filter_In in J as [J1 J2].
  unfold of_id in J2. apply andb_prop in J2 as [J2 J3]. split; [exact J1|]. split; [exact J2|lia].
Qed.
Lemma map_messages_key check l id : In id (map fst (map_messages check l)) -> exists m, In m l /\ check m = true /\ m_id (snd m) = id.
Proof.
  intro I. apply in_map_iff in I as ([j ms] & <- & I). destruct (map_messages_spec check l) as [[_ F] _]. rewrite Forall_forall in F. pose proof (F _ I) as N.
  cbn in *. destruct ms as [|m ms]; [congruence|]. exists m. eapply map_messages_In; [exact I|now left].
Qed.
Lemma grouped_keys {A} (g : list (Z * list A)) : grouped g -> NoDup (map fst g).
Proof.
  intros [S _]. induction S as [|e g S IH F]; cbn; constructor; [|exact IH]. intro I. apply in_map_iff in I as (x & E & I).
  rewrite Forall_forall in F. apply F in I. lia.
Qed.

(** * Selecting a case *)
Section Select.
  Context {A : Type} (lab : Z -> txt) (val : Z -> Z) (bd : Z * A -> list stmt) (others : list stmt).
  Definition cases_of (g : list (Z * A)) : list (txt * list stmt) := map (fun e => (lab (fst e), bd e)) g.
  Lemma select_hit g id a : (forall k, In k (map fst g) -> constant_with_comment (lab k) (val k)) ->
    (forall k, In k (map fst g) -> val k = val id -> k = id) -> NoDup (map fst g) -> In (id, a) g ->
    exists tail, selects (val id) others (cases_of g) (bd (id, a) ++ tail).
  Proof.
    intros L J N I. induction g as [|[k b] g IH]; [contradiction|]. cbn [cases_of map fst]. inversion N as [|? ? N1 N2]; subst.
    destruct I as [[= -> ->]|I].
    - eexists. apply sel_here. apply L. now left.
    - destruct IH as [tail Ht]; auto; try (intros; first [apply L|apply J]; try right; assumption).
      exists tail. apply sel_next; [|exact Ht]. intro C. assert (val k = val id) as E by (eapply wc_det; [apply L; now left|exact C]).
      apply J in E; [|now left]. subst k. apply N1. apply in_map_iff. now exists (id, a).
  Qed.
  Lemma select_miss g v : (forall k, In k (map fst g) -> constant_with_comment (lab k) (val k) /\ val k <> v) ->
    selects v others (cases_of g) others.
  Proof.
    intro L. induction g as [|[k b] g IH]; cbn [cases_of map fst]; [constructor|]. apply sel_next.
    - intro C. destruct (L k) as [D E]; [now left|]. apply E. eapply wc_det; eauto.
    - apply IH. intros j I. apply L. now right.
  Qed.
  Lemma labels_ok g : (forall k, In k (map fst g) -> constant_with_comment (lab k) (val k)) ->
    (forall k j, In k (map fst g) -> In j (map fst g) -> val k = val j -> k = j) -> NoDup (map fst g) -> distinct_labels (map fst (cases_of g)).
  Proof.
    intros L J N. unfold distinct_labels, cases_of. rewrite map_map. cbn [fst]. split.
    - apply Forall_forall. intros t I. apply in_map_iff in I as (e & <- & I). exists (val (fst e)). apply L. now apply in_map.
    - induction g as [|[k b] g IH]; cbn [map fst]; constructor.
      + apply Forall_forall. intros t I. apply in_map_iff in I as ([j c] & <- & I). cbn [fst]. intros v C D. inversion N as [|? ? N1 N2]; subst.
        apply N1. replace k with j; [change j with (fst (j, c)); now apply in_map|]. apply J; [right; change j with (fst (j, c)); now apply in_map|now left|].
        transitivity v; [|symmetry]; (eapply wc_det; [apply L|eassumption]); [right; change j with (fst (j, c)); now apply in_map|now left].
      + inversion N; subst. apply IH; auto; intros; [apply L|apply J]; try right; assumption.
  Qed.
End Select.

(** * Texts of statements *)
Ltac cut1 := match goal with
  | |- context [tokens (?a ++ ?b)] => first [rewrite (tokens_l a b) by reflexivity | rewrite (tokens_r a b) by reflexivity]
  end.
Ltac cuts := rewrite <- ?app_assoc; repeat cut1.
Lemma ends_app a c : ends (a ++ [c]) = negb (ident_char c).
Proof. induction a as [|x a IH]; [reflexivity|]. cbn [app ends]. destruct (a ++ [c]) eqn:E; [destruct a; discriminate|exact IH]. Qed.
Lemma ends_snoc a w c : ends (a ++ w ++ [c]) = negb (ident_char c).
Proof. rewrite app_assoc. apply ends_app. Qed.
Lemma printed_ends s : ends (printed s) = true.
Proof.
  destruct s as [e|e| |c b|b|x cs o]; cbn [printed].
  - apply (ends_snoc e (T ";") " "%char).
  - rewrite app_assoc. apply (ends_snoc (T "return " ++ e) (T ";") " "%char).
  - reflexivity.
  - rewrite !app_assoc. match goal with |- ends (?a ++ T "} ") = _ => apply (ends_snoc a (T "}") " "%char) end.
  - rewrite !app_assoc. match goal with |- ends (?a ++ T "} ") = _ => apply (ends_snoc a (T "}") " "%char) end.
  - rewrite !app_assoc. match goal with |- ends (?a ++ T "} ") = _ => apply (ends_snoc a (T "}") " "%char) end.
Qed.
Lemma program_tokens l : tokens (program_text l) = flat_map (fun s => tokens (printed s)) l.
Proof.
  unfold program_text. induction l as [|s l IH]; [reflexivity|]. cbn [map concat flat_map]. now rewrite tokens_l, IH by apply printed_ends.
Qed.
Lemma program_app a b : program_text (a ++ b) = program_text a ++ program_text b.
Proof. unfold program_text. now rewrite map_app, concat_app. Qed.
Lemma program_tokens_app a b : tokens (program_text (a ++ b)) = tokens (program_text a) ++ tokens (program_text b).
Proof. rewrite !program_tokens. apply flat_map_app. Qed.
Definition case_text (k : txt * list stmt) : txt := T "case " ++ fst k ++ T ": " ++ program_text (snd k).
Lemma case_tokens k : tokens (case_text k) = [T "case"] ++ tokens (fst k) ++ [T ":"] ++ tokens (program_text (snd k)).
Proof. unfold case_text. cuts. reflexivity. Qed.
Lemma program_ends l : ends (program_text l) = true.
Proof.
  unfold program_text. induction l as [|s l IH]; [reflexivity|]. cbn [map concat].
  destruct (concat (map printed l)) as [|c t] eqn:E; [rewrite app_nil_r; apply printed_ends|].
  clear - IH. induction (printed s) as [|d p IHp]; [exact IH|]. cbn [app ends]. destruct (p ++ c :: t) eqn:F; [destruct p; discriminate|exact IHp].
Qed.
Lemma ends_cat a b : ends b = true -> b <> [] -> ends (a ++ b) = true.
Proof.
  intros H N. induction a as [|d p IHp]; [exact H|]. cbn [app ends]. destruct (p ++ b) eqn:F; [destruct p; [contradiction|discriminate]|exact IHp].
Qed.
Lemma case_ends k : ends (case_text k) = true.
Proof.
  unfold case_text. destruct (program_text (snd k)) eqn:E.
  - rewrite app_nil_r, app_assoc. apply (ends_snoc (T "case " ++ fst k) (T ":") " "%char).
  - rewrite <- E, !app_assoc. apply ends_cat; [apply program_ends|congruence].
Qed.
Lemma cases_tokens cs : tokens (concat (map case_text cs)) = flat_map (fun k => tokens (case_text k)) cs.
Proof. induction cs as [|k cs IH]; [reflexivity|]. cbn [map concat flat_map]. now rewrite tokens_l, IH by apply case_ends. Qed.
Lemma switch_text x cs o : printed (Switch x cs o) =
  T "switch (" ++ subject_text x ++ T ") { " ++ concat (map case_text cs) ++ T "default: " ++ program_text o ++ T "} ".
Proof. reflexivity. Qed.
Lemma cases_ends cs : ends (concat (map case_text cs)) = true.
Proof.
  induction cs as [|k cs IH]; [reflexivity|]. cbn [map concat]. destruct (concat (map case_text cs)) eqn:E; [rewrite app_nil_r; apply case_ends|].
  apply ends_cat; [exact IH|discriminate].
Qed.
Lemma switch_tokens x cs o : tokens (printed (Switch x cs o)) =
  [T "switch"; T "("] ++ tokens (subject_text x) ++ [T ")"; T "{"] ++ flat_map (fun k => tokens (case_text k)) cs ++
  [T "default"; T ":"] ++ tokens (program_text o) ++ [T "}"].
Proof.
  rewrite switch_text. cuts. rewrite (tokens_l (concat _)) by apply cases_ends. rewrite cases_tokens. cuts. reflexivity.
Qed.
Lemma list_tokens l : tokens (genStrListToString l [nl] []) = flat_map tokens l.
Proof.
  induction l as [|x l IH]; [reflexivity|]. destruct l as [|y l].
  - cbn [genStrListToString flat_map]. now rewrite !app_nil_r.
  - change (genStrListToString (x :: y :: l) [nl] []) with (x ++ nl :: genStrListToString (y :: l) [nl] []). rewrite tokens_nl, IH. reflexivity.
Qed.

(** * createMsg *)
Definition lab (id : Z) : txt := match id_text id with Ok t => t | _ => [] end.
Definition idx_lab (i : nat) : txt := match genNumToStringS (Z.of_nat i) with Ok t => t | _ => [] end.
Definition new_text (main : txt) (m : gen_message) : txt :=
  T "MsgPtr(new " ++ genScopeFor main (fst m) ++ T "<TInterface, TProtOptions>)".
Fixpoint ifs (main : txt) (i : nat) (ms : list gen_message) : list stmt :=
  match ms with [] => [] | m :: ms' => If (IdxIs (idx_lab i)) [Return (new_text main m)] :: ifs main (S i) ms' end.
Definition create_body (main : txt) (unique : bool) (e : Z * list gen_message) : list stmt :=
  if unique then match snd e with m :: _ => [Return (new_text main m)] | [] => [] end
  else ifs main 0 (snd e) ++ [Break].
Definition lambda_text : txt := T "auto updateReasonFunc = [reason](CreateFailureReason val) { if (reason != nullptr) { *reason = val; } }".
Definition reason_none : txt := T "updateReasonFunc(CreateFailureReason::None)".
Definition reason_invalid : txt := T "updateReasonFunc(CreateFailureReason::InvalidId)".
Definition create_program (main : txt) (unique : bool) (g : list (Z * list gen_message)) : list stmt :=
  [Do lambda_text] ++ (if unique then [If (AtMostIdx (T "1U")) [Do reason_invalid; Return (T "MsgPtr()")]] else []) ++
  [Do reason_none; Switch ById (cases_of lab (create_body main unique) g) [Break]; Do reason_invalid; Return (T "MsgPtr()")].

(** the tokens of literals *)
Ltac closed a := match a with T _ => idtac | L _ => idtac | nil => idtac | cons _ _ => idtac | lambda_text => idtac | reason_none => idtac | reason_invalid => idtac end.
Ltac lit1 := match goal with
  | |- context [tokens ?a] =>
      closed a;
      let v := eval vm_compute in (tokens a) in
      match v with nil => idtac | cons _ _ => idtac end; change (tokens a) with v
  end.
Ltac same := cuts; repeat lit1; rewrite <- ?app_assoc; cbn [app]; rewrite ?app_nil_r; reflexivity.
Ltac by_template fuel :=
  match goal with |- exists out, genProcessTemplate ?t ?r ?b = Ok out /\ _ =>
    let out := fresh "out" in let E := fresh "E" in let W := fresh "W" in
    edestruct (template_tokens fuel t) as (out & E & W); [vm_compute; reflexivity|]; exists out; split; [exact E|]; rewrite W; clear E W
  end.
Lemma alloc_none main m : exists c, alloc_code main m None = Ok c /\ tokens c = tokens (printed (Return (new_text main m))).
Proof.
  unfold alloc_code. by_template 9%nat. transitivity (tokens (T "return MsgPtr(new " ++ genScopeFor main (fst m) ++ T "<TInterface, TProtOptions>);")); [reflexivity|].
  cbn [printed]. unfold new_text. cuts. reflexivity.
Qed.
Lemma idx_lab_spec i : Z.of_nat i < 2 ^ 63 -> genNumToStringS (Z.of_nat i) = Ok (idx_lab i) /\ constant (idx_lab i) (Z.of_nat i).
Proof.
  intro H. destruct (C35_signed (Z.of_nat i)) as (s & E & C); [change (- 2 ^ 63) with (-9223372036854775808); lia|]. unfold idx_lab. rewrite E. auto.
Qed.
Lemma alloc_some main m i : Z.of_nat i < 2 ^ 63 ->
  exists c, alloc_code main m (Some i) = Ok c /\ tokens c = tokens (printed (If (IdxIs (idx_lab i)) [Return (new_text main m)])).
Proof.
  intro H. unfold alloc_code. destruct (idx_lab_spec i H) as [-> _]. cbn [bind]. by_template 9%nat.
  transitivity (tokens (T "if (idx == " ++ idx_lab i ++ (T ") {" ++ [nl] ++ T "    return MsgPtr(new ") ++ genScopeFor main (fst m) ++ (T "<TInterface, TProtOptions>);" ++ [nl] ++ T "}"))); [reflexivity|].
  cbn [printed map concat cond_text]. unfold new_text. rewrite ?app_nil_r. cuts. reflexivity.
Qed.
Lemma alloc_codes_spec main ms : forall i, Z.of_nat (i + length ms) < 2 ^ 63 ->
  exists cs, alloc_codes main i ms = Ok cs /\ flat_map tokens cs = tokens (program_text (ifs main i ms)).
Proof.
  induction ms as [|m ms IH]; intros i H; [exists []; split; reflexivity|]. cbn [alloc_codes length] in *.
  destruct (alloc_some main m i) as (c & -> & Ec); [lia|]. destruct (IH (S i)) as (cs & -> & Es); [lia|].
  exists (c :: cs). split; [reflexivity|]. cbn [flat_map ifs]. rewrite program_tokens. cbn [flat_map]. now rewrite <- program_tokens, Ec, Es.
Qed.
Definition good_keys {A} (g : list (Z * A)) : Prop := forall k, In k (map fst g) -> 0 <= k < 2 ^ 64 /\ k <> 2 ^ 63.
Lemma lab_spec k : 0 <= k < 2 ^ 64 -> k <> 2 ^ 63 -> id_text k = Ok (lab k) /\ constant_with_comment (lab k) (to_s64 k).
Proof. intros H N. destruct (id_text_spec k H N) as (t & E & C). unfold lab. rewrite E. auto. Qed.
Lemma create_case_spec main unique id ms : 0 <= id < 2 ^ 64 -> id <> 2 ^ 63 -> ms <> [] -> Z.of_nat (length ms) < 2 ^ 63 ->
  exists c, create_case main unique (id, ms) = Ok c /\ tokens c = tokens (case_text (lab id, create_body main unique (id, ms))).
Proof.
  intros H N Nm Len. unfold create_case. cbn [fst snd]. destruct (lab_spec id H N) as [-> _]. cbn [bind]. unfold create_body. cbn [snd].
  destruct unique.
  - destruct ms as [|m ms]; [congruence|]. cbn [bind]. destruct (alloc_none main m) as (c & -> & Ec). cbn [bind].
    by_template 9%nat. transitivity (tokens (T "case " ++ lab id ++ T ": " ++ c ++ [])); [reflexivity|].
    rewrite app_nil_r, case_tokens. cbn [fst snd]. rewrite program_tokens. cbn [flat_map]. rewrite app_nil_r, <- Ec. cuts. reflexivity.
  - destruct (alloc_codes_spec main ms 0) as (cs & -> & Es); [exact Len|]. cbn [bind].
    by_template 9%nat. transitivity (tokens (T "case " ++ lab id ++ (T ": " ++ [nl] ++ T "    ") ++ genStrListToString cs [nl] [] ++ ([nl] ++ T "    break;" ++ [nl]))); [reflexivity|].
    rewrite case_tokens. cbn [fst snd]. rewrite program_tokens_app, <- Es, <- list_tokens. cuts. reflexivity.
Qed.
Lemma mapM_cases {A} (f : A -> res txt) (h : A -> txt) l : (forall a, In a l -> exists c, f a = Ok c /\ tokens c = tokens (h a)) ->
  exists cs, mapM f l = Ok cs /\ flat_map tokens cs = flat_map (fun a => tokens (h a)) l.
Proof.
  induction l as [|a l IH]; intro H; [exists []; split; reflexivity|]. cbn [mapM]. destruct (H a) as (c & -> & Ec); [now left|].
  destruct IH as (cs & -> & Es); [intros; apply H; now right|]. exists (c :: cs). split; [reflexivity|]. cbn [flat_map]. now rewrite Ec, Es.
Qed.
Lemma cases_of_tokens {A} (bd : Z * A -> list stmt) (g : list (Z * A)) :
  flat_map (fun k => tokens (case_text k)) (cases_of lab bd g) = flat_map (fun e => tokens (case_text (lab (fst e), bd e))) g.
Proof. unfold cases_of. induction g as [|e g IH]; [reflexivity|]. cbn [map flat_map]. now rewrite IH. Qed.
Definition sizes_ok {A} (g : list (Z * list A)) : Prop := Forall (fun e => Z.of_nat (length (snd e)) < 2 ^ 63) g.
Lemma create_code_spec main unique g : grouped g -> good_keys g -> sizes_ok g ->
  exists out, create_code main g unique = Ok out /\ tokens out = tokens (program_text (create_program main unique g)).
Proof.
  intros [_ G] K Z. unfold create_code.
  destruct (mapM_cases (create_case main unique) (fun e => case_text (lab (fst e), create_body main unique e)) g) as (cs & -> & Es).
  { intros [id ms] I. unfold sizes_ok in Z. rewrite Forall_forall in G, Z. destruct (K id) as [K1 K2]; [now apply (in_map fst) in I|].
    apply create_case_spec; [exact K1|exact K2|now apply (G _ I)|now apply (Z _ I)]. }
  cbn [bind]. rewrite <- (cases_of_tokens (create_body main unique)) in Es. rewrite <- list_tokens in Es.
  assert (W : forall chk r, (lookup (L "CHECK_IDX") r = chk) -> lookup (L "CASES") r = genStrListToString cs [nl] [] ->
    exists out, genProcessTemplate create_templ r false = Ok out /\
    tokens out = tokens (lambda_text ++ T ";") ++ tokens chk ++ tokens (reason_none ++ T "; switch (static_cast<std::intmax_t>(id)) {") ++
      tokens (genStrListToString cs [nl] []) ++ tokens (T "default: break; } " ++ reason_invalid ++ T "; return MsgPtr();")).
  { intros chk r Hc Hs. by_template 9%nat. cbn [substituted]. change (lookup ["C"; "H"; "E"; "C"; "K"; "_"; "I"; "D"; "X"]%char r) with (lookup (L "CHECK_IDX") r).
    change (lookup ["C"; "A"; "S"; "E"; "S"]%char r) with (lookup (L "CASES") r). rewrite Hc, Hs. same. }
  unfold create_program. rewrite !program_tokens_app. destruct unique.
  - destruct (W check_idx_text ([(L "CASES", genStrListToString cs [nl] []); (L "CHECK_IDX", check_idx_text)])) as (out & E & F); [reflexivity..|].
    exists out. split; [exact E|]. rewrite F, Es. rewrite (program_tokens (_ :: _ :: _)). cbn [flat_map]. rewrite switch_tokens. generalize (flat_map (fun k => tokens (case_text k)) (cases_of lab (create_body main true) g)). intro X. same.
  - destruct (W [] [(L "CASES", genStrListToString cs [nl] [])]) as (out & E & F); [reflexivity..|].
    exists out. split; [exact E|]. rewrite F, Es. rewrite (program_tokens (_ :: _ :: _)). cbn [flat_map]. rewrite switch_tokens. generalize (flat_map (fun k => tokens (case_text k)) (cases_of lab (create_body main false) g)). intro X. same.
Qed.
(** ** Running it *)
Lemma keys_inj {A} (g : list (Z * A)) k j : good_keys g -> In k (map fst g) -> In j (map fst g) -> to_s64 k = to_s64 j -> k = j.
Proof. intros K I J. apply to_s64_inj; [now apply K|now apply K]. Qed.
Lemma switch_hit {A} (bd : Z * list A -> list stmt) others g id : grouped g -> good_keys g -> 0 <= id < 2 ^ 64 -> find_id id g <> [] ->
  exists tail, selects (to_s64 id) others (cases_of lab bd g) (bd (id, find_id id g) ++ tail).
Proof.
  intros G K H N. apply select_hit with (val := to_s64).
  - intros k I. apply lab_spec; now apply K.
  - intros k I. apply to_s64_inj; [now apply K|exact H].
  - now apply grouped_keys.
  - destruct (grouped_find g id G) as [[I _]|[_ E]]; [exact I|congruence].
Qed.
Lemma switch_miss {A} (bd : Z * list A -> list stmt) others g id : grouped g -> good_keys g -> 0 <= id < 2 ^ 64 -> find_id id g = [] ->
  selects (to_s64 id) others (cases_of lab bd g) others.
Proof.
  intros G K H N. apply select_miss with (val := to_s64). intros k I. split; [apply lab_spec; now apply K|].
  intro E. apply to_s64_inj in E; [|now apply K|exact H]. subst k. apply in_map_iff in I as ([j ms] & E & I). cbn in E. subst j.
  rewrite (find_In _ _ _ G I) in N. destruct G as [_ F]. rewrite Forall_forall in F. now apply (F _ I).
Qed.
Lemma switch_labels {A} (bd : Z * list A -> list stmt) g : grouped g -> good_keys g -> distinct_labels (map fst (cases_of lab bd g)).
Proof.
  intros G K. apply labels_ok with (val := to_s64).
  - intros k I. apply lab_spec; now apply K.
  - intros k j I J. now apply (keys_inj g).
  - now apply grouped_keys.
Qed.
Lemma ifs_runs main id ms rest done o : forall i j, (i <= j)%nat -> Z.of_nat (i + length ms) < 2 ^ 63 ->
  match nth_error ms (j - i) with
  | Some m => runs id (Z.of_nat j) (ifs main i ms ++ rest) [] (Returned (new_text main m))
  | None => runs id (Z.of_nat j) rest done o -> runs id (Z.of_nat j) (ifs main i ms ++ rest) done o
  end.
Proof.
  induction ms as [|m ms IH]; intros i j L Z; [cbn [ifs app]; destruct (j - i)%nat; cbn; tauto|]. cbn [ifs app length] in *.
  destruct (idx_lab_spec i) as [_ C]; [lia|]. destruct (Nat.eq_dec i j) as [->|N].
  - rewrite Nat.sub_diag. cbn [nth_error]. apply run_if; [exact C|]. apply run_return.
  - specialize (IH (S i) j ltac:(lia) ltac:(lia)). replace (j - i)%nat with (S (j - S i)) by lia. cbn [nth_error].
    assert (X : ~ holds (Z.of_nat j) (IdxIs (idx_lab i))). { cbn. intro D. pose proof (constant_det _ _ _ C D). lia. }
    destruct (nth_error ms (j - S i)); [now apply run_skip|intro R; apply run_skip; auto].
Qed.
Lemma small_U c d : numeral 10 [c] d -> 0 <= d < 10 -> constant [c; "U"%char] d.
Proof.
  intros H B. apply (const_lit _ TUInt). apply (cpp_dec [c] (T "U") [TUInt; TULong; TULongLong]); [exact H|cbn; congruence|right; left; split; reflexivity|].
  apply first_here. cbn. change (2 ^ 32) with 4294967296. lia.
Qed.
Lemma one_U : constant (T "1U") 1.
Proof. apply small_U; [apply num_one; split; [lia|left; reflexivity]|lia]. Qed.
Lemma zero_U : constant (T "0U") 0.
Proof. apply small_U; [apply num_one; split; [lia|left; reflexivity]|lia]. Qed.
Lemma by_id id : 0 <= id < 2 ^ 64 -> forall idx, subject_value id idx ById (to_s64 id).
Proof. intros H idx. cbn. now apply cast_iff. Qed.
Lemma create_runs main unique g id j : grouped g -> good_keys g -> sizes_ok g -> 0 <= id < 2 ^ 64 ->
  (unique = true -> Forall (fun e => length (snd e) <= 1)%nat g) ->
  match nth_error (find_id id g) j with
  | Some m => runs id (Z.of_nat j) (create_program main unique g) [lambda_text; reason_none] (Returned (new_text main m))
  | None => exists tr, runs id (Z.of_nat j) (create_program main unique g) (tr ++ [reason_invalid]) (Returned (T "MsgPtr()"))
  end.
Proof.
  intros G K Z H U. unfold create_program. cbn [app].
  assert (Hit : forall m, nth_error (find_id id g) j = Some m -> (unique = true -> j = 0%nat) ->
    runs id (Z.of_nat j) [Do reason_none; Switch ById (cases_of lab (create_body main unique) g) [Break]; Do reason_invalid; Return (T "MsgPtr()")]
         [reason_none] (Returned (new_text main m))).
  { intros m Hm Hj. apply run_do. assert (N : find_id id g <> []) by (intro E; rewrite E in Hm; destruct j; discriminate).
    destruct (switch_hit (create_body main unique) [Break] g id G K H N) as [tail S].
    eapply run_switch_return; [now apply by_id|exact S|]. unfold create_body. cbn [snd]. destruct unique.
    - rewrite Hj in Hm by reflexivity. destruct (find_id id g) as [|x l]; [discriminate|]. injection Hm as ->. apply run_return.
    - rewrite <- app_assoc. pose proof (ifs_runs main id (find_id id g) ([Break] ++ tail) [] Broke 0 j) as R. rewrite Nat.sub_0_r, Hm in R.
      apply R; [lia|]. destruct (grouped_find g id G) as [[I _]|[_ E]]; [|congruence]. unfold sizes_ok in Z. rewrite Forall_forall in Z. apply (Z _ I). }
  assert (Miss : nth_error (find_id id g) j = None -> (unique = true -> j = 0%nat) ->
    runs id (Z.of_nat j) [Do reason_none; Switch ById (cases_of lab (create_body main unique) g) [Break]; Do reason_invalid; Return (T "MsgPtr()")]
         ([reason_none] ++ [reason_invalid]) (Returned (T "MsgPtr()"))).
  { intros Hm Hj. cbn [app]. apply run_do. change [reason_invalid] with ([] ++ [reason_invalid]).
    assert (Last : runs id (Z.of_nat j) [Do reason_invalid; Return (T "MsgPtr()")] [reason_invalid] (Returned (T "MsgPtr()"))) by (apply run_do, run_return).
    destruct (find_id id g) as [|x l] eqn:E.
    - eapply run_switch; [now apply by_id|now apply switch_miss|apply run_break|now right|exact Last].
    - assert (N : find_id id g <> []) by congruence. destruct (switch_hit (create_body main unique) [Break] g id G K H N) as [tail S].
      eapply run_switch; [now apply by_id|exact S| |right; reflexivity|exact Last]. rewrite E. unfold create_body. cbn [snd]. destruct unique.
      + rewrite Hj in Hm by reflexivity. discriminate.
      + rewrite <- app_assoc. pose proof (ifs_runs main id (x :: l) ([Break] ++ tail) [] Broke 0 j) as R. rewrite Nat.sub_0_r, Hm in R.
        apply R; [lia| |apply run_break]. rewrite <- E. destruct (grouped_find g id G) as [[I _]|[_ E']]; [|congruence]. unfold sizes_ok in Z. rewrite Forall_forall in Z. apply (Z _ I). }
  destruct unique.
  - cbn [app]. destruct j as [|j].
    + assert (X : ~ holds (Z.of_nat 0) (AtMostIdx (T "1U"))). { intros (v & C & L). rewrite (constant_det _ _ _ C one_U) in L. cbn in L. lia. }
      destruct (nth_error (find_id id g) 0) as [m|] eqn:E.
      * apply run_do, run_skip; [exact X|]. now apply Hit.
      * exists [lambda_text; reason_none]. apply run_do, run_skip; [exact X|]. now apply Miss.
    + assert (nth_error (find_id id g) (S j) = None) as ->.
      { apply nth_error_None. destruct (grouped_find g id G) as [[I _]|[_ ->]]; [|cbn; lia]. specialize (U eq_refl). rewrite Forall_forall in U. specialize (U _ I). cbn in U. lia. }
      exists [lambda_text]. apply run_do, run_if; [exists 1; split; [apply one_U|lia]|]. cbn [app]. apply run_do, run_return.
  - cbn [app]. destruct (nth_error (find_id id g) j) as [m|] eqn:E.
    + apply run_do. apply Hit; [reflexivity|discriminate].
    + exists [lambda_text; reason_none]. apply run_do. apply Miss; [reflexivity|discriminate].
Qed.
Lemma ifs_compile main ms : forall i, Forall compiles (ifs main i ms).
Proof. induction ms as [|m ms IH]; intro i; cbn [ifs]; constructor; [repeat constructor|apply IH]. Qed.
Lemma create_compiles main unique g : grouped g -> good_keys g -> Forall compiles (create_program main unique g).
Proof.
  intros G K. unfold create_program. apply Forall_app. split; [repeat constructor|]. apply Forall_app. split; [destruct unique; repeat constructor|].
  repeat constructor.
  - now apply switch_labels.
  - now apply switch_labels.
  - intros t body I. unfold cases_of in I. apply in_map_iff in I as ([id ms] & [= <- <-] & I). unfold create_body. cbn [snd].
    destruct unique; [destruct ms; repeat constructor|]. apply Forall_app. split; [apply ifs_compile|repeat constructor].
Qed.

(** * msgCount *)
Definition count_program {A} (g : list (Z * list A)) : list stmt :=
  [Switch ById (cases_of lab (fun e => [Return (genNumToStringU (Z.of_nat (length (snd e))) 0)]) g) [Break]; Return (T "0U")].
Lemma count_code_spec g : good_keys g -> exists out, count_code g = Ok out /\ tokens out = tokens (program_text (count_program g)).
Proof.
  intros K. unfold count_code.
  destruct (mapM_cases count_case (fun e => case_text (lab (fst e), [Return (genNumToStringU (Z.of_nat (length (snd e))) 0)])) g) as (cs & -> & Es).
  { intros [id ms] I. destruct (K id) as [K1 K2]; [now apply (in_map fst) in I|]. unfold count_case. cbn [fst snd]. destruct (lab_spec id K1 K2) as [-> _]. cbn [bind].
    by_template 9%nat. generalize (genNumToStringU (Z.of_nat (length ms)) 0). intro z. transitivity (tokens (T "case " ++ lab id ++ T ": return " ++ z ++ T ";")); [reflexivity|].
    rewrite case_tokens. cbn [fst snd program_text map concat printed]. same. }
  cbn [bind]. rewrite <- list_tokens in Es.
  by_template 9%nat. transitivity (tokens ((T "switch (static_cast<std::intmax_t>(id))" ++ [nl] ++ T "{" ++ [nl] ++ T "    ") ++ genStrListToString cs [nl] [] ++
     ([nl] ++ T "    default: break;" ++ [nl] ++ T "}" ++ [nl; nl] ++ T "return 0U;" ++ [nl]))); [reflexivity|].
  unfold count_program. rewrite program_tokens. cbn [flat_map]. rewrite switch_tokens, (cases_of_tokens _ g), <- Es. same.
Qed.
Lemma count_runs {A} (g : list (Z * list A)) id idx : grouped g -> good_keys g -> sizes_ok g -> 0 <= id < 2 ^ 64 ->
  exists t, runs id idx (count_program g) [] (Returned t) /\ constant t (Z.of_nat (length (find_id id g))).
Proof.
  intros G K Z H. unfold count_program. destruct (find_id id g) as [|x l] eqn:E.
  - exists (T "0U"). split; [|apply zero_U]. change (@nil txt) with (@nil txt ++ []). eapply run_switch; [now apply by_id|now apply switch_miss|apply run_break|now right|apply run_return].
  - assert (N : find_id id g <> []) by congruence.
    destruct (switch_hit (fun e => [Return (genNumToStringU (Z.of_nat (length (snd e))) 0)]) [Break] g id G K H N) as [tail S]. rewrite E in S. cbn [snd] in S.
    exists (genNumToStringU (Z.of_nat (length (x :: l))) 0). split.
    + eapply run_switch_return; [now apply by_id|exact S|]. apply run_return.
    + apply C35_unsigned; [|lia]. rewrite <- E. destruct (grouped_find g id G) as [[I _]|[_ E']]; [|congruence]. unfold sizes_ok in Z. rewrite Forall_forall in Z.
      specialize (Z _ I). cbn [snd] in Z. change (2 ^ 63) with 9223372036854775808 in *. change (2 ^ 64) with 18446744073709551616 in *. lia.
Qed.
Lemma count_compiles {A} (g : list (Z * list A)) : grouped g -> good_keys g -> Forall compiles (count_program g).
Proof.
  intros G K. unfold count_program. repeat constructor; [now apply switch_labels..|].
  intros t body I. unfold cases_of in I. apply in_map_iff in I as ([id ms] & [= <- <-] & I). repeat constructor.
Qed.

(** * Dispatch *)
Definition using_text (main : txt) (m : gen_message) : txt :=
  T "using MsgType = " ++ genScopeFor main (fst m) ++ T "<InterfaceType, TProtOptions>".
Definition handle_text : txt := T "handler.handle(static_cast<MsgType&>(msg))".
Definition default_text : txt := T "handler.handle(msg)".
Definition handle_block (main : txt) (m : gen_message) : list stmt := [Block [Do (using_text main m); Return handle_text]].
Definition num_lab (i : nat) : txt := genNumToStringU (Z.of_nat i) 0.
Fixpoint handle_cases (main : txt) (i : nat) (ms : list gen_message) : list (txt * list stmt) :=
  match ms with [] => [] | m :: ms' => (num_lab i, handle_block main m) :: handle_cases main (S i) ms' end.
Definition dispatch_body (main : txt) (e : Z * list gen_message) : list stmt :=
  match snd e with
  | [m] => handle_block main m
  | ms => [Block [Switch ByIdx (handle_cases main 0 ms) [Return default_text]; Do []; Break]]
  end.
Definition interface_text : txt := T "using InterfaceType = typename std::decay<decltype(msg)>::type".
Definition dispatch_program (main : txt) (g : list (Z * list gen_message)) : list stmt :=
  [Do interface_text; Switch ById (cases_of lab (dispatch_body main) g) [Break]; Do []; Return default_text].
Ltac closed a ::= match a with T _ => idtac | L _ => idtac | nil => idtac | cons _ _ => idtac | handle_text => idtac | default_text => idtac | interface_text => idtac end.
Lemma msg_case_spec main t m : exists c, msg_case main t m = Ok c /\ tokens c = tokens (case_text (t, handle_block main m)).
Proof.
  unfold msg_case. by_template 9%nat.
  transitivity (tokens (T "case " ++ t ++ (T ":" ++ [nl] ++ T "{" ++ [nl] ++ T "    using MsgType = ") ++ genScopeFor main (fst m) ++
    (T "<InterfaceType, TProtOptions>;" ++ [nl] ++ T "    return handler.handle(static_cast<MsgType&>(msg));" ++ [nl] ++ T "}"))); [reflexivity|].
  rewrite case_tokens. cbn [fst snd handle_block program_text map concat printed]. unfold using_text. rewrite ?app_nil_r. same.
Qed.
Lemma idx_cases_spec main ms : forall i, exists cs, idx_cases main i ms = Ok cs /\
  flat_map tokens cs = flat_map (fun k => tokens (case_text k)) (handle_cases main i ms).
Proof.
  induction ms as [|m ms IH]; intro i; [exists []; split; reflexivity|]. cbn [idx_cases handle_cases flat_map].
  destruct (msg_case_spec main (num_lab i) m) as (c & E & Ec). unfold num_lab in E at 1. rewrite E. destruct (IH (S i)) as (cs & -> & Es).
  exists (c :: cs). split; [reflexivity|]. cbn [flat_map]. now rewrite Ec, Es.
Qed.
Lemma dispatch_case_spec main id ms : 0 <= id < 2 ^ 64 -> id <> 2 ^ 63 ->
  exists c, dispatch_case main (id, ms) = Ok c /\ tokens c = tokens (case_text (lab id, dispatch_body main (id, ms))).
Proof.
  intros H N. unfold dispatch_case. cbn [fst snd]. destruct (lab_spec id H N) as [-> _]. cbn [bind].
  assert (M : exists c, (cs <- idx_cases main 0 ms;; genProcessTemplate idx_case_templ [(L "MSG_ID", lab id); (L "IDX_CASES", genStrListToString cs [nl] [])] false) = Ok c /\
    tokens c = tokens (case_text (lab id, [Block [Switch ByIdx (handle_cases main 0 ms) [Return default_text]; Do []; Break]]))).
  { destruct (idx_cases_spec main ms 0) as (cs & -> & Es). cbn [bind]. rewrite <- list_tokens in Es. generalize (lab id). intro t.
    by_template 9%nat. transitivity (tokens (T "case " ++ t ++ (T ":" ++ [nl] ++ T "{" ++ [nl] ++ T "    switch (idx) {" ++ [nl] ++ T "    ") ++ genStrListToString cs [nl] [] ++
      ([nl] ++ T "    default:" ++ [nl] ++ T "        return handler.handle(msg);" ++ [nl] ++ T "    };" ++ [nl] ++ T "    break;" ++ [nl] ++ T "}"))); [reflexivity|].
    rewrite case_tokens. cbn [fst snd]. unfold program_text. cbn [map concat]. rewrite app_nil_r.
    change (printed (Block ?b)) with (T "{ " ++ program_text b ++ T "} "). rewrite (tokens_l (T "{ ")) by reflexivity. rewrite (tokens_r (program_text _)) by reflexivity.
    rewrite program_tokens. cbn [flat_map]. rewrite switch_tokens, <- Es. cbn [printed subject_text program_text map concat]. same. }
  destruct ms as [|m [|m' ms]]; [exact M| |exact M]. apply msg_case_spec.
Qed.
Lemma dispatch_code_spec main g : good_keys g ->
  exists cs out, dispatch_cases main g = Ok cs /\ genProcessTemplate switch_body_templ [(L "CASES", cs)] false = Ok out /\
    tokens out = tokens (program_text (dispatch_program main g)).
Proof.
  intro K. unfold dispatch_cases.
  destruct (mapM_cases (dispatch_case main) (fun e => case_text (lab (fst e), dispatch_body main e)) g) as (cs & -> & Es).
  { intros [id ms] I. destruct (K id) as [K1 K2]; [now apply (in_map fst) in I|]. now apply dispatch_case_spec. }
  cbn [bind]. rewrite <- list_tokens, <- (cases_of_tokens (dispatch_body main)) in Es. generalize dependent (genStrListToString cs [nl] []). intros t Es.
  exists t. assert (X : exists out, genProcessTemplate switch_body_templ [(L "CASES", t)] false = Ok out /\ tokens out = tokens (program_text (dispatch_program main g))).
  { by_template 9%nat. transitivity (tokens ((T "    using InterfaceType = typename std::decay<decltype(msg)>::type;" ++ [nl] ++ T "    switch(static_cast<std::intmax_t>(id)) {" ++ [nl] ++ T "    ")
      ++ t ++ ([nl] ++ T "    default:" ++ [nl] ++ T "        break;" ++ [nl] ++ T "    };" ++ [nl; nl] ++ T "    return handler.handle(msg);" ++ [nl]))); [reflexivity|].
    unfold dispatch_program. rewrite program_tokens. cbn [flat_map]. rewrite switch_tokens, <- Es. cbn [printed subject_text program_text map concat]. same. }
  destruct X as (out & E & W). exists out. auto.
Qed.
(** ** Running it *)
Lemma num_lab_spec i : Z.of_nat i < 2 ^ 63 -> constant (num_lab i) (Z.of_nat i).
Proof. intro H. apply C35_unsigned; [|lia]. change (2 ^ 63) with 9223372036854775808 in *. change (2 ^ 64) with 18446744073709551616. lia. Qed.
Lemma wc_no i v : Z.of_nat i < 2 ^ 63 -> constant_with_comment (num_lab i) v -> v = Z.of_nat i.
Proof. intros H C. eapply wc_det; [exact C|]. left. now apply num_lab_spec. Qed.
Lemma handle_selects main others ms : forall i j, (i <= j)%nat -> Z.of_nat (i + length ms) < 2 ^ 63 ->
  match nth_error ms (j - i) with
  | Some m => exists tail, selects (Z.of_nat j) others (handle_cases main i ms) (handle_block main m ++ tail)
  | None => selects (Z.of_nat j) others (handle_cases main i ms) others
  end.
Proof.
  induction ms as [|m ms IH]; intros i j Le Z; [cbn [handle_cases]; destruct (j - i)%nat; cbn; constructor|]. cbn [handle_cases length] in *.
  destruct (Nat.eq_dec i j) as [->|N].
  - rewrite Nat.sub_diag. cbn [nth_error]. eexists. apply sel_here. left. apply num_lab_spec. lia.
  - specialize (IH (S i) j ltac:(lia) ltac:(lia)). replace (j - i)%nat with (S (j - S i)) by lia. cbn [nth_error].
    assert (X : ~ constant_with_comment (num_lab i) (Z.of_nat j)) by (intro C; apply wc_no in C; lia).
    destruct (nth_error ms (j - S i)) as [m'|]; [destruct IH as [tail S]; exists tail|]; apply sel_next; assumption.
Qed.
Lemma block_runs main id idx m tail : runs id idx (handle_block main m ++ tail) [using_text main m] (Returned handle_text).
Proof. cbn [handle_block app]. apply run_block. cbn [app]. apply run_do, run_return. Qed.
(** the message a dispatch with [j] goes to: an id with one message has no index *)
Definition dispatched (ms : list gen_message) (j : nat) : option gen_message :=
  match ms with [m] => Some m | _ => nth_error ms j end.
Lemma dispatch_runs main g id j : grouped g -> good_keys g -> sizes_ok g -> 0 <= id < 2 ^ 64 ->
  match dispatched (find_id id g) j with
  | Some m => runs id (Z.of_nat j) (dispatch_program main g) [interface_text; using_text main m] (Returned handle_text)
  | None => runs id (Z.of_nat j) (dispatch_program main g) (match find_id id g with [] => [interface_text; []] | _ => [interface_text] end) (Returned default_text)
  end.
Proof.
  intros G K Z H. unfold dispatch_program.
  assert (Sz : Z.of_nat (length (find_id id g)) < 2 ^ 63).
  { destruct (grouped_find g id G) as [[I _]|[_ ->]]; [|reflexivity]. unfold sizes_ok in Z. rewrite Forall_forall in Z. apply (Z _ I). }
  destruct (find_id id g) as [|m ms] eqn:E.
  { cbn [dispatched]. destruct j; cbn [nth_error]; apply run_do; change [[]] with (@nil txt ++ [@nil ascii]);
      (eapply run_switch; [now apply by_id|now apply switch_miss|apply run_break|now right|apply run_do, run_return]). }
  assert (N : find_id id g <> []) by congruence. destruct (switch_hit (dispatch_body main) [Break] g id G K H N) as [tail S]. rewrite E in S. unfold dispatch_body in S. cbn [snd] in S.
  destruct ms as [|m' ms].
  - cbn [dispatched]. apply run_do. eapply run_switch_return; [now apply by_id|exact S|apply block_runs].
  - change (dispatched (m :: m' :: ms) j) with (nth_error (m :: m' :: ms) j).
    pose proof (handle_selects main [Return default_text] (m :: m' :: ms) 0 j ltac:(lia) ltac:(exact Sz)) as R. rewrite Nat.sub_0_r in R.
    destruct (nth_error (m :: m' :: ms) j) as [x|].
    + destruct R as [tl R]. apply run_do. eapply run_switch_return; [now apply by_id|exact S|]. cbn [app]. apply run_block. cbn [app].
      eapply run_switch_return; [reflexivity|exact R|apply block_runs].
    + apply run_do. eapply run_switch_return; [now apply by_id|exact S|]. cbn [app]. apply run_block. cbn [app].
      eapply run_switch_return; [reflexivity|exact R|apply run_return].
Qed.
Lemma handle_labels main ms : forall i, Z.of_nat (i + length ms) < 2 ^ 63 ->
  distinct_labels (map fst (handle_cases main i ms)) /\ forall t, In t (map fst (handle_cases main i ms)) -> exists k, (i <= k)%nat /\ constant t (Z.of_nat k).
Proof.
  induction ms as [|m ms IH]; intros i Z; cbn [handle_cases map fst length] in *; [split; [split; constructor|intros t []]|].
  destruct (IH (S i) ltac:(lia)) as [[D1 D2] R]. pose proof (num_lab_spec i ltac:(lia)) as C. split.
  - split; [constructor; [exists (Z.of_nat i); now left|exact D1]|constructor; [|exact D2]]. apply Forall_forall. intros u I v Cv Cu.
    destruct (R u I) as (k & Hk & Ck). apply wc_no in Cv; [|lia]. pose proof (wc_det _ _ _ Cu (or_introl Ck)). lia.
  - intros t [<-|I]; [exists i; split; [lia|exact C]|]. destruct (R t I) as (k & Hk & Ck). exists k. split; [lia|exact Ck].
Qed.
Lemma handle_compiles main ms : forall i t body, In (t, body) (handle_cases main i ms) -> Forall compiles body.
Proof.
  induction ms as [|m ms IH]; intros i t body; cbn [handle_cases]; [intros []|]. intros [[= <- <-]|I]; [repeat constructor|eauto].
Qed.
Lemma dispatch_compiles main g : grouped g -> good_keys g -> sizes_ok g -> Forall compiles (dispatch_program main g).
Proof.
  intros G K Z. unfold dispatch_program. repeat constructor; [now apply switch_labels..|].
  intros t body I. unfold cases_of in I. apply in_map_iff in I as ([id ms] & [= <- <-] & I). unfold dispatch_body. cbn [snd].
  assert (Sz : Z.of_nat (length ms) < 2 ^ 63) by (unfold sizes_ok in Z; rewrite Forall_forall in Z; apply (Z _ I)).
  assert (M : Forall compiles [Block [Switch ByIdx (handle_cases main 0 ms) [Return default_text]; Do []; Break]]).
  { repeat constructor; [apply handle_labels..|apply handle_compiles]; exact Sz. }
  destruct ms as [|m [|m' ms]]; [exact M| |exact M]. repeat constructor.
Qed.

(** * The messages of a namespace *)
Fixpoint located (path : list txt) (n : nspace) {struct n} : list (list txt * message) :=
  match n with
  | mkNs _ _ _ subs _ ms _ _ =>
      (fix go (l : list (str * nspace)) : list (list txt * message) :=
         match l with [] => [] | (_, s) :: l' => located (path ++ [ns_name s]) s ++ go l' end) subs ++
      map (fun m => (path, m)) (by_name m_name ms)
  end.
Definition place (x : list txt * message) : gen_message := (parents_of (fst x) EMessage (m_name (snd x)), snd x).
Definition ns_path (path : list txt) : elem_path := rev (map (fun k => (ENamespace, k)) path).
Lemma located_eq path n : located path n = flat_map (fun s => located (path ++ [ns_name (snd s)]) (snd s)) (ns_subs n) ++ map (fun m => (path, m)) (ns_messages_list n).
Proof.
  destruct n as [nm dn de subs fs ms is fr]. unfold ns_messages_list. cbn [located ns_subs ns_messages]. f_equal.
  induction subs as [|[k s] subs IH]; [reflexivity|]. cbn [flat_map snd]. f_equal. exact IH.
Qed.
Lemma ns_ind' (P : nspace -> Prop) : (forall n, (forall k s, In (k, s) (ns_subs n) -> P s) -> P n) -> forall n, P n.
Proof.
  intros H. fix IH 1. intros [nm dn de subs fs ms is fr]. apply H. cbn [ns_subs].
  induction subs as [|[k s] subs IHs]; [intros k s []|]. intros k' s' [[= <- <-]|I]; [apply IH|exact (IHs _ _ I)].
Qed.
Lemma gen_messages_located n : forall pre, genGetAllMessages (ns_path pre) n = map place (located (pre ++ [ns_name n]) n).
Proof.
  induction n as [n IH] using ns_ind'. intro pre. rewrite located_eq, map_app, map_map. destruct n as [nm dn de subs fs ms is fr].
  unfold ns_messages_list. cbn [genGetAllMessages ns_subs ns_messages ns_name] in *. f_equal.
  - assert (E : (ENamespace, nm) :: ns_path pre = ns_path (pre ++ [nm])) by (unfold ns_path; now rewrite map_app, rev_app_distr).
    rewrite E. clear E. induction subs as [|[k s] subs IHs]; [reflexivity|]. cbn [flat_map snd]. rewrite map_app. f_equal.
    + apply (IH k s). now left.
    + apply IHs. intros k' s' I. apply (IH k' s'). now right.
  - apply map_ext. intro m. unfold place, parents_of, ns_path. cbn [fst snd]. now rewrite map_app, rev_app_distr.
Qed.
Definition below (n : nspace) (rest : list txt) (m : message) : Prop :=
  (rest = [] /\ In m (ns_messages_list n)) \/ exists n', namespace_at (ns_subs n) rest n' /\ In m (ns_messages_list n').
Lemma located_In n : ns_ok n -> forall path q m, In (q, m) (located path n) <-> exists rest, q = path ++ rest /\ below n rest m.
Proof.
  induction n as [n IH] using ns_ind'. intros O path q m. inversion O as [? _ _ _ _ S N R]; subst. rewrite located_eq, in_app_iff, in_flat_map, in_map_iff. split.
  - intros [([k s] & I & J)|(x & [= <- <-] & I)].
    + cbn [snd] in J. apply (IH _ _ I (R _ _ I)) in J as (rest & -> & B). destruct (N _ _ I) as [<- _]. exists (k :: rest). split; [now rewrite <- app_assoc|].
      right. destruct B as [[-> B]|(n' & A & B)]; [exists s|exists n']; (split; [|exact B]); [now constructor|]. now apply na_sub with s.
    + exists []. split; [now rewrite app_nil_r|]. left. auto.
  - intros (rest & -> & [[-> B]|(n' & A & B)]).
    + right. exists m. split; [now rewrite app_nil_r|exact B].
    + left. inversion A as [l k s I|l k s p n'' I A']; subst.
      * exists (k, n'). split; [exact I|]. cbn [snd]. apply (IH _ _ I (R _ _ I)). exists []. destruct (N _ _ I) as [<- _]. split; [now rewrite app_nil_r|left; auto].
      * exists (k, s). split; [exact I|]. cbn [snd]. apply (IH _ _ I (R _ _ I)). exists p. destruct (N _ _ I) as [<- _]. split; [now rewrite <- app_assoc|right; eauto].
Qed.
Lemma messages_NoDup n : ns_ok n -> NoDup (ns_messages_list n).
Proof.
  intros O. inversion O as [? F0 SM F2 F3 F4 F5 F6]; subst. destruct SM as [S M]. unfold ns_messages_list, by_name.
  apply (Permutation_NoDup (l := map snd (ns_messages n))); [symmetry; apply sort_perm|].
  clear O. induction S as [|[k v] l S IH F]; cbn [map snd]; constructor.
  - intro I. apply in_map_iff in I as ([k' v'] & E & I). cbn [snd] in E. subst v'. rewrite Forall_forall in F. specialize (F _ I). cbn [fst] in F.
    destruct (M k v) as (-> & _); [now left|]. destruct (M k' v) as (-> & _); [now right|]. unfold key_ltb in F. rewrite str_ltb_irrefl in F. discriminate.
  - apply IH. intros k' v' I. apply M. now right.
Qed.
Lemma NoDup_cat {A} (a b : list A) : NoDup a -> NoDup b -> (forall x, In x a -> In x b -> False) -> NoDup (a ++ b).
Proof.
  intros N M D. induction N as [|x a H N IH]; [exact M|]. cbn [app]. constructor.
  - rewrite in_app_iff. intros [I|I]; [contradiction|]. apply (D x); [now left|exact I].
  - apply IH. intros y Y. apply D. now right.
Qed.
Lemma located_NoDup n : ns_ok n -> forall path, NoDup (located path n).
Proof.
  induction n as [n IH] using ns_ind'. intros O path. inversion O as [? _ _ _ _ S N R]; subst. rewrite located_eq. apply NoDup_cat.
  - clear O. induction S as [|[k s] l S IHl F]; cbn [flat_map snd]; [constructor|]. apply NoDup_cat.
    + apply (IH k s); [now left|]. apply (R k). now left.
    + apply IHl; intros; [eapply IH; [right; eassumption|assumption]|apply N; now right|eapply R; right; eassumption].
    + intros [q m] A B. apply located_In in A as (r & -> & _); [|apply (R k); now left]. apply in_flat_map in B as ([k' s'] & I & B). cbn [snd] in B.
      apply located_In in B as (r' & E & _); [|apply (R k'); now right]. rewrite <- !app_assoc in E. apply app_inv_head in E. cbn [app] in E.
      destruct (N k s) as [N1 _]; [now left|]. destruct (N k' s') as [N2 _]; [now right|]. assert (K : k = k') by congruence.
      rewrite Forall_forall in F. specialize (F _ I). cbn in F. rewrite K in F. rewrite str_ltb_irrefl in F. discriminate.
  - pose proof (messages_NoDup _ O) as M. apply FinFun.Injective_map_NoDup; [|exact M]. intros a b [= E]. exact E.
  - intros [q m] A B. apply in_map_iff in B as (x & [= <- <-] & _). apply in_flat_map in A as ([k s] & I & A). cbn [snd] in A.
    apply located_In in A as (r & E & _); [|apply (R k); exact I]. rewrite <- app_assoc in E. rewrite <- (app_nil_r path) in E at 1. apply app_inv_head in E. discriminate.
Qed.
(** ** paths *)
Lemma sorted_unique {A} (l : list (str * A)) k a b : sorted_map str_ltb l -> In (k, a) l -> In (k, b) l -> a = b.
Proof.
  induction 1 as [|[k' v] l S IH F]; [intros []|]. rewrite Forall_forall in F. intros [[= -> ->]|I] [[= E]|J]; subst; auto.
  - specialize (F _ J). cbn in F. now rewrite str_ltb_irrefl in F.
  - specialize (F _ I). cbn in F. now rewrite str_ltb_irrefl in F.
Qed.
Lemma at_app l p n q m : namespace_at l p n -> namespace_at (ns_subs n) q m -> namespace_at l (p ++ q) m.
Proof. intro H. induction H; intro Q; cbn [app]; eapply na_sub; eauto. Qed.
Lemma at_split l p n : namespace_at l p n -> sorted_map str_ltb l -> (forall k s, In (k, s) l -> ns_ok s) ->
  forall q m, namespace_at l (p ++ q) m -> q = [] /\ m = n \/ namespace_at (ns_subs n) q m.
Proof.
  induction 1 as [l k n I|l k n p x I H IH]; intros S R q m J; cbn [app] in J.
  - inversion J as [? ? ? I' A B|? ? s ? ? I' J']; subst; [left; split; [reflexivity|]|right]; now rewrite (sorted_unique _ _ _ _ S I I').
  - pose proof (R _ _ I) as O. inversion O as [? _ _ _ _ S' _ R']; subst. apply IH; [assumption|assumption|].
    remember (p ++ q) as pq eqn:B. inversion J as [? ? ? I' A C|? ? s ? ? I' J' A C]; subst; [|now rewrite (sorted_unique _ _ _ _ S I I')].
    destruct p; [inversion H|discriminate].
Qed.
Lemma at_name l p n : namespace_at l p n -> (forall k s, In (k, s) l -> k = ns_name s) -> (forall k s, In (k, s) l -> ns_ok s) ->
  exists pre, p = pre ++ [ns_name n].
Proof.
  induction 1 as [l k n I|l k n p x I H IH]; intros N R; [exists []; now rewrite (N _ _ I)|].
  pose proof (R _ _ I) as O. inversion O as [? _ _ _ _ _ N' R']; subst. destruct IH as [pre ->]; [intros; now apply N'|assumption|]. now exists (k :: pre).
Qed.
Lemma below_at sc path n : nss_ok (sc_ns sc) -> namespace_at (sc_ns sc) path n ->
  forall rest m, below n rest m <-> message_at sc (path ++ rest) m.
Proof.
  intros [S N R] A rest m. unfold below, message_at. split.
  - intros [[-> B]|(n' & A' & B)]; [exists n; now rewrite app_nil_r|]. exists n'. split; [now apply at_app with n|exact B].
  - intros (x & X & B). destruct (at_split _ _ _ A S R _ _ X) as [[-> ->]|X']; [left; auto|right; eauto].
Qed.
(** ** sorting *)
Definition loc_ltb (a b : list txt * message) : bool := msg_ltb (snd a) (snd b).
Lemma insert_map {A B} (f : A -> B) (lt : B -> B -> bool) (lt' : A -> A -> bool) : (forall a b, lt (f a) (f b) = lt' a b) ->
  forall x l, insert lt (f x) (map f l) = map f (insert lt' x l).
Proof. intros E x l. induction l as [|y l IH]; [reflexivity|]. cbn [map insert]. rewrite E. destruct (lt' y x); cbn [map]; [now rewrite IH|reflexivity]. Qed.
Lemma isort_map {A B} (f : A -> B) (lt : B -> B -> bool) (lt' : A -> A -> bool) : (forall a b, lt (f a) (f b) = lt' a b) ->
  forall l, isort lt (map f l) = map f (isort lt' l).
Proof. intros E l. induction l as [|x l IH]; [reflexivity|]. cbn [map]. unfold isort in *. cbn [fold_right]. now rewrite IH, (insert_map f lt lt'). Qed.
Definition sorted_located (path : list txt) (n : nspace) := isort loc_ltb (located path n).
Lemma loc_sorted l : StronglySorted id_order (isort loc_ltb l).
Proof.
  assert (S : StronglySorted (fun a b => loc_ltb b a = false) (isort loc_ltb l)).
  { apply (sort_sorted loc_ltb (fun _ => True)).
    - intros a b _ _. unfold loc_ltb. rewrite msg_ltb_spec, msg_ltb_le. unfold msg_le. lia.
    - intros a b c _ _ _. unfold loc_ltb. rewrite !msg_ltb_le. unfold msg_le. lia.
    - apply Forall_forall. auto. }
  induction S as [|x l' S IH F]; constructor; [exact IH|]. eapply Forall_impl; [|exact F]. intros b. apply msg_ltb_le.
Qed.
Lemma all_sorted pre n : genGetAllMessagesIdSorted (ns_path pre) n = map place (sorted_located (pre ++ [ns_name n]) n).
Proof. unfold genGetAllMessagesIdSorted. rewrite gen_messages_located. now apply isort_map. Qed.
Lemma filter_map {A B} (f : A -> B) (p : B -> bool) l : filter p (map f l) = map f (filter (fun x => p (f x)) l).
Proof. induction l as [|x l IH]; [reflexivity|]. cbn [map filter]. destruct (p (f x)); cbn [map]; now rewrite IH. Qed.
Lemma sorted_filter {A} (R : A -> A -> Prop) p l : StronglySorted R l -> StronglySorted R (filter p l).
Proof.
  induction 1 as [|x l S IH F]; [constructor|]. cbn [filter]. destruct (p x); [|exact IH]. constructor; [exact IH|].
  rewrite Forall_forall in *. intros y I. apply filter_In in I as [I _]. auto.
Qed.
(** the selected messages, in order *)
Definition chosen (path : list txt) (n : nspace) (check : gen_message -> bool) : list (list txt * message) :=
  filter (fun x => check (place x)) (sorted_located path n).
Lemma chosen_listing sc path n check sel : nss_ok (sc_ns sc) -> namespace_at (sc_ns sc) path n -> ns_ok n ->
  (forall x, check (place x) = true <-> sel (fst x) (snd x)) -> listing sc path sel (chosen path n check).
Proof.
  intros O A On E. unfold chosen, sorted_located. split; [|split].
  - apply NoDup_filter. apply (Permutation_NoDup (l := located path n)); [symmetry; apply sort_perm|]. now apply located_NoDup.
  - apply sorted_filter, loc_sorted.
  - intros q m. rewrite filter_In, sort_In, (located_In n On), E. cbn [fst snd]. split.
    + intros [(rest & -> & B) C]. apply (below_at _ _ _ O A) in B. split; [eauto|split; assumption].
    + intros ((rest & ->) & B & C). split; [|exact C]. exists rest. split; [reflexivity|]. now apply (below_at _ _ _ O A).
Qed.
Lemma chosen_sorted pre n check : filter check (genGetAllMessagesIdSorted (ns_path pre) n) = map place (chosen (pre ++ [ns_name n]) n check).
Proof. rewrite all_sorted. apply filter_map. Qed.
Lemma filter_filter {A} (p q : A -> bool) l : filter q (filter p l) = filter (fun x => p x && q x) l.
Proof. induction l as [|x l IH]; [reflexivity|]. cbn [filter]. destruct (p x); cbn [filter andb]; [destruct (q x)|]; now rewrite IH. Qed.
Lemma chosen_id pre n check id : filter (of_id check id) (genGetAllMessagesIdSorted (ns_path pre) n) =
  map place (with_id id (chosen (pre ++ [ns_name n]) n check)).
Proof.
  unfold with_id, chosen. rewrite filter_filter, all_sorted, filter_map. reflexivity.
Qed.

(** ** classes and ids *)
Lemma join_parts_join sep l : join_parts sep l = join sep l.
Proof. induction l as [|w l IH]; [reflexivity|]. destruct l as [|w2 l]; [reflexivity|]. cbn [join_parts join] in *. now rewrite IH. Qed.
Lemma ns_parts_filter path : ns_parts path = filter not_empty path.
Proof. unfold ns_parts. induction path as [|k path IH]; [reflexivity|]. cbn [map concat filter]. rewrite IH. now destruct k. Qed.
Lemma class_scope main q m : main <> [] -> q <> [] -> valid (m_name m) -> genScopeFor main (fst (place (q, m))) = message_class main q m.
Proof.
  intros M Q V. unfold genScopeFor, place. cbn [fst snd]. unfold parents_of at 1. cbn [elem_leaf]. rewrite (global_parts true _ q EMessage (m_name m) I Q V).
  rewrite join_parts_join. unfold message_class, opt_name. destruct main as [|c0 m0]; [congruence|]. cbn [is_nil app folder]. now rewrite ns_parts_filter.
Qed.
Lemma accepted_message_id m : accepted_message m -> 0 <= m_id m < 2 ^ 64.
Proof.
  intros [me n m' He Hi Hm H]. apply message_parse_steps in H as [st _]. pose proof (ms_id _ _ _ st) as E. unfold message_id in E.
  apply bind_Ok in E as (u & _ & E). apply bind_Ok in E as (v & _ & E). destruct (if parseIsValidRefName v then _ else _) as [x|].
  - apply Ok_inj in E. rewrite <- E. apply BaseFacts.to_u64_range.
  - apply of_opt_Ok in E. apply stoull_spec in E as (w & _ & _ & ->). apply Z.mod_pos_bound. reflexivity.
Qed.
Lemma listed_ok sc path sel l q m : nss_ok (sc_ns sc) -> listing sc path sel l -> In (q, m) l -> q <> [] /\ valid (m_name m) /\ accepted_message m.
Proof.
  intros O (_ & _ & L) I. apply L in I as (_ & (n & A & B) & _). destruct (path_cases _ _ _ O A) as [On P]. split.
  - destruct P as [[-> _]|[P _]]; [discriminate|exact P].
  - inversion On as [? F0 SM F2 F3 F4 F5 F6]; subst. destruct SM as [_ M]. unfold ns_messages_list, by_name in B. rewrite sort_In in B.
    apply in_map_iff in B as ([k v] & E & B). cbn [snd] in E. subst v. destruct (M _ _ B) as (-> & V & Q). split; [exact V|exact Q].
Qed.
Lemma check_wanted p t x : check_of p t (place x) = true <-> wanted p t (fst x) (snd x).
Proof.
  destruct x as [q m]. cbn [fst snd]. unfold wanted.
  assert (C : forall s b, (b = not_sender s (place (q, m))) -> (b = true <-> m_sender m <> s)).
  { intros s b ->. unfold not_sender, place. cbn [snd]. destruct (m_sender m), s; intuition congruence. }
  assert (P : forall r, check_platform r (place (q, m)) = true <-> on_platform (Some r) m).
  { intro r. unfold check_platform, place. cbn [snd on_platform]. destruct (m_platforms m) as [|a l]; [intuition|]. rewrite mem_str_In. intuition congruence. }
  pose proof (C Client _ eq_refl) as C1. pose proof (C Server _ eq_refl) as C2. clear C.
  destruct p as [r|], t; cbn [check_of on_platform received]; unfold check_platform_client, check_platform_server, check_client, check_server, check_all;
    rewrite ?andb_true_iff, ?P, ?C1, ?C2; cbn [on_platform]; destruct (m_sender m); intuition congruence.
Qed.

(** ** the two dispatch functions *)
Definition single_indexed (name : txt) : list stmt := [If (IdxIsNot (T "0U")) [Return default_text]; Return (call_plain name)].
Definition multi_plain (name : txt) : list stmt := [Return (call_first name)].
Lemma single_idx_spec name : exists out, genProcessTemplate single_idx_templ [(L "NAME", name)] false = Ok out /\
  tokens out = tokens (program_text (single_indexed name)).
Proof.
  by_template 9%nat. transitivity (tokens ((T "    if (idx != 0U) {" ++ [nl] ++ T "        return handler.handle(msg);" ++ [nl] ++ T "    }" ++ [nl] ++ T "    return ") ++ call_plain name ++ (T ";" ++ [nl]))).
  { unfold call_plain. rewrite <- !app_assoc. reflexivity. }
  unfold single_indexed. rewrite program_tokens. cbn [flat_map printed map concat cond_text]. generalize (call_plain name). intro z. same.
Qed.
Lemma multi_plain_spec name : exists out, genProcessTemplate multi_no_idx_templ [(L "NAME", name)] false = Ok out /\
  tokens out = tokens (program_text (multi_plain name)).
Proof.
  by_template 9%nat. transitivity (tokens (T "    return " ++ call_first name ++ (T ";" ++ [nl]))).
  { unfold call_first. rewrite <- !app_assoc. reflexivity. }
  unfold multi_plain. rewrite program_tokens. cbn [flat_map printed]. generalize (call_first name). intro z. same.
Qed.
