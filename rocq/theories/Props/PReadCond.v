(** C77: whether a message may be read, decided by the fields of the interface. *)
From Coq Require Import Lia.
From Verif.Model Require Import Base Common Xml Units Field FieldCommon Composite Message Protocol OptCond GenUtil GenComms CommsInt CommsCond CommsPrefix CommsRead CommsConstruct.
From Verif.Spec Require Import Texts Ints DslSpec HeaderSpec AttrSpec GenSpec CppSpec TokenSpec XmlSpec CondCode CondTyping ConstructCode PrefixCode ReadCode ReadCond Ex.
From Verif.Proofs Require Import BaseFacts CommonFacts TokenFacts CondCodeFacts CondTextFacts CondMeanFacts CondExprFacts PrefixFacts ReadFacts ConstructFacts ReadCondFacts XmlFacts CaseFacts AttrFacts ProtocolFacts PlatFacts.
From Verif.Props Require Import PCondCode ExProtocol PPrefix PAlias PRead PConstruct.
Local Open Scope string_scope. Local Open Scope Z_scope. Local Open Scope list_scope.

(** the read function starts with a check of an expression which has the value of the condition, and no other one *)
Theorem C77_read_condition : forall ce up s c b, holds_fields ce s -> imeans s c b ->
  exists code e, read_condition ce up (Some c) = Ok code /\ tokens code = tokens (print_check e) /\ forall b', ivalue s e b' <-> b' = b.
Proof.
  intros ce up s c b H Me. destruct (icond_says ce s s H (shape_refl s) up c true b Me) as (t & e & E & Ly & V).
  destruct (read_check ce up t e c E Ly) as (code & Ec & Tc). exists code, e. split; [exact Ec|]. split; [exact Tc|].
  intro b'. split; [intro V'; eapply ivalue_det; eauto|intros ->; exact V].
Qed.
Print Assumptions C77_read_condition.
(** the whole function: the members are read (see C72) if the condition holds, otherwise none is *)
Theorem C77_read_function : forall ce up m l v s c b, m_readCond m = Some c -> holds_fields ce s -> imeans s c b ->
  member_codes ce up (m_fields m) = Ok l -> Forall (prefixes_known (m_fields m)) (m_fields m) -> NoDup (access_names (m_fields m)) ->
  nth_error (m_ovr m) 0 <> Some OvrReplace -> message_valid ce up (m_fields m) (m_validCond m) = Ok v ->
  let own := existsb needs_prepare (m_fields m) in
  exists out f t e, message_read_code ce up m = Ok out /\ tokens out = tokens (print_func f) /\
    rf_cond f = Some t /\ tokens t = tokens (print_i e) /\ (forall b', ivalue s e b' <-> b' = b) /\
    forall S (rd : reader S) st len, run_func rd (access_names (m_fields m)) f b st len = Some (
      if b then
        let told := if own && ge_versionDependent (ce_gen ce) then rd_update rd st else st in
        let (es, st') := read_members rd (map needs_prepare (m_fields m)) 0 told len in
        (if own && m_failOnInvalid m && negb (if is_nil v then rd_base_valid rd st' else rd_valid rd st') then invalid else es, st')
      else (invalid, st)).
Proof.
  intros ce up m l v s c b Hc H Me El K Nd Nr Ev own. destruct (icond_says ce s s H (shape_refl s) up c true b Me) as (t & e & E & Ly & V).
  assert (Nt : t <> []) by (pose proof (lay_nonnil _ _ Ly); intros ->; discriminate).
  assert (Te : tokens t = tokens (print_i e)).
  { rewrite <- (unindent_tokens t false). pose proof (Ly false []) as Q. rewrite app_nil_r in Q. rewrite Q. cbn [unindent]. now rewrite app_nil_r. }
  assert (VV : forall b', ivalue s e b' <-> b' = b) by (intro b'; split; [intro V'; eapply ivalue_det; eauto|intros ->; exact V]).
  destruct own eqn:O; unfold own in O.
  - destruct (C72_message_read ce up m l v El K Nd Nr O Ev) as (out & f & A1 & A2 & A3 & A4); [rewrite Hc; eauto|]. rewrite Hc in A3. destruct A3 as (t' & F & E'). assert (t' = t) as -> by congruence.
    exists out, f, t, e. repeat (split; [assumption|]). intros S rd st len. destruct (A4 S rd st len) as [B1 B2]. destruct b.
    + cbn [andb]. cbv zeta in B2. destruct (read_members _ _ _ _ _) as [es st']. exact B2.
    + apply B1. congruence.
  - pose proof (C72_message_plain ce up m l v El K Nr O Ev) as P. rewrite Hc in P. destruct (P t E Nt) as (out & f & A1 & A2 & A3 & A4).
    exists out, f, t, e. repeat (split; [assumption|]). intros S rd st len. destruct (A4 S rd st len) as [B1 B2]. destruct b; [|exact B1].
    cbn [andb]. rewrite B2. f_equal. assert (map (fun _ => false) (m_fields m) = map needs_prepare (m_fields m)) as ->.
    { clear -O. induction (m_fields m) as [|x l IH]; [reflexivity|]. cbn [existsb map] in *. apply orb_false_iff in O as [-> O]. f_equal. apply IH, O. }
    cbv zeta. now destruct (read_members rd (map needs_prepare (m_fields m)) 0 st len).
Qed.
Print Assumptions C77_read_function.
(** a message whose condition for being read is its construct condition (constructAsReadCond) can be read into once it has been constructed *)
Theorem C77_constructed : forall ce up s0 c l, holds_fields ce s0 -> asks c l -> listed c -> Forall (meaningful s0) l -> NoDup (map what l) ->
  exists made sts read e, internal_construct ce c = Ok made /\ tokens made = tokens (print_cs sts) /\
    read_condition ce up (Some c) = Ok read /\ tokens read = tokens (print_check e) /\
    (exists s', sets_all s0 sts s') /\ forall s', sets_all s0 sts s' -> forall b, ivalue s' e b <-> b = true.
Proof.
  intros ce up s0 c l H As Li M Nd. destruct (internal_all ce s0 c l H As M) as (t & sts & E & Et & D & _).
  destruct (runs_all s0 l sts D M Nd s0 (shape_refl s0)) as [(s1 & X) U]. destruct (U s1 X) as (Sh1 & S1 & _).
  destruct (icond_says ce s0 s1 H Sh1 up c true true (asked_means s0 s1 Sh1 c l As Li M S1)) as (t1 & e & E1 & Ly1 & V1).
  destruct (read_check ce up t1 e c E1 Ly1) as (code & Ec & Tc). exists t, sts, code, e. split; [exact E|]. split; [exact Et|]. split; [exact Ec|]. split; [exact Tc|].
  split; [eauto|]. intros s' R b. rewrite (sets_all_det _ _ _ _ R X). split; [intro V'; eapply ivalue_det; eauto|intros ->; exact V1].
Qed.
Print Assumptions C77_constructed.

(** the condition for being read is the construct condition where the element says constructAsReadCond="true", and likewise for the one for being valid *)
Lemma copies me p k v from to o : prop_supported me k = true -> bool_text v true -> values_of p k = [v] -> cond_as me p k from to = Ok o ->
  o = from /\ from <> None.
Proof.
  intros S B V H. unfold cond_as in H. apply bind_Ok in H as (u & _ & H). rewrite find_values, V in H. cbn [hd_error] in H. rewrite S in H. cbn [negb] in H.
  apply bool_text_spec in B. rewrite B in H. cbn [of_opt bind negb] in H. destruct from as [c|], to; try discriminate H. injection H as <-. split; [reflexivity|discriminate].
Qed.
Theorem C77_same_condition : forall me n m v, message_parse me n = Ok m -> available 6 (e_dsl (me_env me)) -> bool_text v true ->
  (supplied n (T "constructAsReadCond") [v] -> m_construct m <> None /\ m_readCond m = m_construct m) /\
  (supplied n (T "constructAsValidCond") [v] -> m_construct m <> None /\ m_validCond m = m_construct m).
Proof.
  intros me n m v H A B. apply message_parse_steps in H as [st _]. pose proof (ms_conds _ _ _ st) as C. unfold message_conds in C.
  repeat (apply bind_Ok in C as (? & ? & C)). injection C as C1 C2 C3.
  assert (P : forall k, mem_str k [L "constructAsReadCond"; L "constructAsValidCond"] = true -> prop_supported (me_env me) k = true).
  { intros k Hk. apply mem_str_In in Hk. destruct (available_cases (me_env me) 6) as [[S _]|[_ N]]; [|contradiction]. unfold prop_supported.
    destruct Hk as [<-|[<-|[]]]; exact S. }
  assert (Q : forall k, mem_str k [L "constructAsReadCond"; L "constructAsValidCond"] = true -> supplied n k [v] -> values_of (ms_p _ _ _ st) k = [v]).
  { intros k Hk S. eapply supplied_det; [|exact S]. apply mem_str_In in Hk. destruct Hk as [<-|[<-|[]]]; (apply message_supplied; [apply mem_str_In; reflexivity|discriminate|apply mem_str_nIn; reflexivity]). }
  split; intro S.
  - match goal with X : cond_as _ _ (L "constructAsReadCond") _ _ = Ok _ |- _ => apply (copies _ _ _ v) in X; [destruct X as [-> N]|apply P; reflexivity|exact B|apply Q; [reflexivity|exact S]] end.
    rewrite <- C1, <- C2. auto.
  - match goal with X : cond_as _ _ (L "constructAsValidCond") _ _ = Ok _ |- _ => apply (copies _ _ _ v) in X; [destruct X as [-> N]|apply P; reflexivity|exact B|apply Q; [reflexivity|exact S]] end.
    rewrite <- C1, <- C3. auto.
Qed.
Print Assumptions C77_same_condition.

(** a message of an accepted schema with a condition for being read *)
Definition doc_read (c : node) : node :=
  el "schema" [("name", "one"); ("version", "1")]
    [el "interface" [("name", "I")]
       [el "set" [("name", "Flags"); ("length", "1")] [el "bit" [("name", "b0"); ("idx", "0")] []; el "bit" [("name", "b1"); ("idx", "1")] []; el "bit" [("name", "b2"); ("idx", "2")] []];
        el "int" [("name", "ver"); ("type", "uint8")] [el "special" [("name", "Big"); ("val", "200")] []]; el "int" [("name", "old"); ("type", "uint8")] []];
     el "fields" [] [el "enum" [("name", "MsgId"); ("type", "uint8"); ("semanticType", "messageId")] [el "validValue" [("name", "M1"); ("val", "1")] []]];
     el "message" [("name", "M1"); ("id", "MsgId.M1")] [c]].
Definition read_root (c : node) : nspace :=
  match validate false no_stod [doc_read c] with Ok p => match sc_ns (nth 0 (pr_schemas p) no_schema) with (_, n) :: _ => n | [] => empty_ns [] [] [] end | _ => empty_ns [] [] [] end.
Definition read_ce (c : node) : cond_env := mkCE (mkGE (mkGV 5 None 0) false) (fun _ => None) (map if_fields (ns_ifaces_list (read_root c))).
Definition read_cond (c : node) : option cond := match ns_messages_list (read_root c) with [m] => m_readCond m | _ => None end.
Definition rc (v : string) : node := el "readCond" [("value", v)] [].
Definition ex_read : node := el "readCond" [] [el "or" [] [el "and" [] [rc "%Flags.b0"; rc "%ver >= Big"]; rc "!%Flags.b1"; rc "%ver != 7"]].
Definition ex_read_cond : cond := CList false [CList true [CExpr [] [] (T "%Flags.b0"); CExpr (T "%ver") (T ">=") (T "Big")];
  CExpr [] (T "!") (T "%Flags.b1"); CExpr (T "%ver") (T "!=") (T "7")].
Lemma big_identifier : identifier (T "Big").
Proof. split; [a_word|eexists; split; [reflexivity|apply in_b_In; vm_compute; reflexivity]]. Qed.
Lemma holds_uint8 n : 0 <= n < 256 -> cpp_holds (T "std::uint8_t") n.
Proof. intro H. right. exists 8. split; [vm_compute; tauto|unfold unsigned_bits; lia]. Qed.
Example C77_ex : is_Ok (validate false no_stod [doc_read ex_read]) = true /\ read_cond ex_read = Some ex_read_cond /\
  holds_fields (ce_with ex_all) ex_before /\ imeans ex_before ex_read_cond false /\
  (forall c, condition_with ex_all = Some c -> listed c) /\
  read_condition (read_ce ex_read) [] (read_cond ex_read) = Ok (join [newline] (map T ["bool validRead =";
    "    ((((Base::transportField_flags().getBitValue_b0()) &&";
    "       (Base::transportField_ver().getValue() >= static_cast<typename Base::TransportField_ver::ValueType>(200)))) ||";
    "     (!Base::transportField_flags().getBitValue_b1()) ||";
    "     (Base::transportField_ver().getValue() != static_cast<typename Base::TransportField_ver::ValueType>(7)));"; "";
    "if (!validRead) {"; "    return comms::ErrorStatus::InvalidMsgData;"; "}"; ""])).
Proof.
  split; [vm_compute; reflexivity|]. split; [vm_compute; reflexivity|]. split; [apply C76_ex|]. split; [|split; [|vm_compute; reflexivity]].
  - apply (im_or _ _ [forallb (fun b => b) [false; num_holds RGe 7 200]; negb true; num_holds RNe 7 7]); [discriminate|cbn; lia|].
    apply Forall2_cons; [|apply Forall2_cons; [|apply Forall2_cons; [|apply Forall2_nil]]].
    + apply im_and; [discriminate|cbn; lia|]. apply Forall2_cons; [|apply Forall2_cons; [|apply Forall2_nil]].
      * eapply (im_bit _ (T "Flags") (T "b0")); [a_word|a_word|reflexivity|reflexivity].
      * eapply (im_num _ (T "ver")); [a_word|reflexivity|right; split; [exact big_identifier|reflexivity]| |vm_compute; tauto].
        split; [apply holds_uint8; lia|]. lia.
    + eapply (im_not_bit _ (T "Flags") (T "b1")); [a_word|a_word|reflexivity|reflexivity].
    + eapply (im_num _ (T "ver")); [a_word|reflexivity|left; apply (den_plain [] (T "7") 7); [constructor|apply magnitude_spec; vm_compute; reflexivity]| |vm_compute; tauto].
      split; [apply holds_uint8; lia|]. lia.
  - intros c E. assert (condition_with ex_all = Some (CList true [CExpr [] [] (T "%Flags.b0"); CExpr [] (T "!") (T "%Flags.b1"); CExpr (T "%ver") (T "=") (T "Big")])) as E' by (vm_compute; reflexivity).
    rewrite E' in E. injection E as <-. apply listed_list; [discriminate|cbn; lia|]. repeat constructor.
Qed.
(** the type of the first of two compared fields is not taken from the base class: the class has no such type *)
Definition fields_read : node := el "readCond" [("value", "%ver = %old")] [].
Theorem C77_fields_refuted : is_Ok (validate false no_stod [doc_read fields_read]) = true /\
  read_condition (read_ce fields_read) [] (read_cond fields_read) = Ok (join [newline] (map T ["bool validRead =";
    "    Base::transportField_ver().getValue() == static_cast<typename Field_ver::ValueType>(Base::transportField_old().getValue());"; "";
    "if (!validRead) {"; "    return comms::ErrorStatus::InvalidMsgData;"; "}"; ""])).
Proof. split; vm_compute; reflexivity. Qed.
Print Assumptions C77_fields_refuted.
(** a message of that schema with constructAsReadCond *)
Definition same_menv : menv := match validate false no_stod [doc_read ex_read] with Ok p => menv_of p | _ => mkMenv (ex_fenv []) (fun _ => None) (fun _ => None) [] [] end.
Definition same_msg : node := el "message" [("name", "M2"); ("id", "2"); ("construct", "%Flags.b0"); ("constructAsReadCond", "True")] [].
Example C77_same_ex : supplied same_msg (T "constructAsReadCond") [T "True"] /\ bool_text (T "True") true /\ available 6 (e_dsl (me_env same_menv)) /\
  exists m, message_parse same_menv same_msg = Ok m /\ m_readCond m = Some (CExpr [] [] (T "%Flags.b0")).
Proof.
  split. { apply supplied_by. vm_compute. reflexivity. }
  split; [apply bool_text_spec; vm_compute; reflexivity|]. split; [left; vm_compute; reflexivity|].
  destruct (message_parse same_menv same_msg) as [m| |] eqn:E.
  - exists m. split; [reflexivity|]. replace (m_readCond m) with (match message_parse same_menv same_msg with Ok m => m_readCond m | _ => None end) by (rewrite E; reflexivity).
    vm_compute. reflexivity.
  - exfalso. assert (X : is_Ok (message_parse same_menv same_msg) = true) by (vm_compute; reflexivity). rewrite E in X. discriminate X.
  - exfalso. assert (X : is_Ok (message_parse same_menv same_msg) = true) by (vm_compute; reflexivity). rewrite E in X. discriminate X.
Qed.
(** a message like that, with members which need to be prepared *)
Definition read_msg : message := got_message (message_parse same_menv (message_el "M3" "3" [("readCond", "!%Flags.b1"); ("failOnInvalid", "true")]
  [el "fields" [] [x_bits; x_cnt; el "data" [("name", "d"); ("lengthPrefix", "$bits.Len")] []]])).
Example C77_read_ex : exists c l v, m_readCond read_msg = Some c /\ holds_fields (ce_with ex_all) ex_before /\ imeans ex_before c false /\
  member_codes (ce_with ex_all) [] (m_fields read_msg) = Ok l /\ Forall (prefixes_known (m_fields read_msg)) (m_fields read_msg) /\
  NoDup (access_names (m_fields read_msg)) /\ nth_error (m_ovr read_msg) 0 <> Some OvrReplace /\
  message_valid (ce_with ex_all) [] (m_fields read_msg) (m_validCond read_msg) = Ok v /\
  existsb needs_prepare (m_fields read_msg) = true /\ m_failOnInvalid read_msg = true.
Proof.
  exists (CExpr [] (T "!") (T "%Flags.b1")). do 2 eexists. split; [vm_compute; reflexivity|]. split; [apply C76_ex|].
  split. { eapply (im_not_bit _ (T "Flags") (T "b1") _ true); [a_word|a_word|reflexivity|reflexivity]. }
  split; [vm_compute; reflexivity|]. split.
  { apply known_by. assert (map prefixes (m_fields read_msg) = [[]; []; [(T "bits.Len", T "forceReadLength")]]) as -> by (vm_compute; reflexivity).
    assert (map f_name (m_fields read_msg) = [T "bits"; T "cnt"; T "d"]) as -> by (vm_compute; reflexivity).
    repeat (constructor; [intros s func H; repeat (destruct H as [H | H]; [apply pair_equal_spec in H as [<- <-]|]); try contradiction|]); [|constructor].
    right. exists (T "bits"), [T "Len"]. split; [|left; reflexivity]. split; [reflexivity|]. split; [discriminate|]. repeat (constructor; [a_word|]). constructor. }
  split. { vm_compute. repeat constructor; cbn; intuition discriminate. }
  split; [vm_compute; discriminate|]. split; [vm_compute; reflexivity|]. split; vm_compute; reflexivity.
Qed.
