(** C76: the default constructor of a message establishes what the construct condition asks for. *)
From Coq Require Import Lia.
From Verif.Model Require Import Base Common Xml Units Field FieldCommon Composite Message Protocol OptCond GenUtil GenComms CommsInt CommsCond CommsConstruct.
From Verif.Spec Require Import Texts Ints GenSpec CppSpec TokenSpec XmlSpec CondCode CondTyping ConstructCode Ex.
From Verif.Proofs Require Import BaseFacts CondCodeFacts CondExprFacts ConstructFacts.
From Verif.Props Require Import PCondCode ExProtocol.
Local Open Scope string_scope. Local Open Scope Z_scope. Local Open Scope list_scope.

(** [s0]: the values of the fields of the interface before; [l]: what the condition asks for. The statements can be executed; after them
    (one per part, in their order) every part of the condition holds, no other field has changed and no other bit either *)
Theorem C76_construct : forall ce s0 c l, holds_fields ce s0 -> asks c l -> Forall (meaningful s0) l -> NoDup (map what l) ->
  exists code sts, internal_construct ce c = Ok code /\ tokens code = tokens (print_cs sts) /\ Forall2 is_for l sts /\
    (exists s', sets_all s0 sts s') /\
    forall s', sets_all s0 sts s' -> Forall (satisfied s') l /\
      (forall n, ~ In n (map (fun a => fst (what a)) l) -> s' n = s0 n) /\
      forall a, meaningful s0 a -> ~ In (what a) (map what l) -> satisfied s0 a -> satisfied s' a.
Proof.
  intros ce s0 c l H As M Nd. destruct (internal_all ce s0 c l H As M) as (t & sts & E & Et & D & P). exists t, sts. split; [exact E|]. split; [exact Et|].
  split; [exact P|]. destruct (runs_all s0 l sts D M Nd s0 (shape_refl s0)) as [X U]. split; [exact X|].
  intros s' R. destruct (U s' R) as (_ & S & Q & O). auto.
Qed.
Print Assumptions C76_construct.
(** the constructor has exactly these statements *)
Theorem C76_constructor : forall ce s0 name c l, holds_fields ce s0 -> asks c l -> Forall (meaningful s0) l -> NoDup (map what l) -> l <> [] ->
  exists code sts, def_construct ce name c = Ok code /\ tokens code = tokens (print_constructor (genClassName name) sts) /\ Forall2 is_for l sts /\
    (exists s', sets_all s0 sts s') /\ forall s', sets_all s0 sts s' -> Forall (satisfied s') l.
Proof.
  intros ce s0 name c l H As M Nd N. destruct (constructor_all ce s0 name c l H As M N) as (t & sts & E & Et & D & P). exists t, sts. split; [exact E|]. split; [exact Et|]. split; [exact P|].
  destruct (runs_all s0 l sts D M Nd s0 (shape_refl s0)) as [X U]. split; [exact X|]. intros s' R. apply (U s' R).
Qed.
Print Assumptions C76_constructor.

(** ** A message of an accepted schema *)
Definition doc_with (construct : list node) : node :=
  el "schema" [("name", "one"); ("version", "1")]
    [el "interface" [("name", "I")]
       [el "set" [("name", "Flags"); ("length", "1")] [el "bit" [("name", "b0"); ("idx", "0")] []; el "bit" [("name", "b1"); ("idx", "1")] []; el "bit" [("name", "b2"); ("idx", "2")] []];
        el "int" [("name", "ver"); ("type", "uint8")] [el "special" [("name", "Big"); ("val", "200")] []];
        el "int" [("name", "old"); ("type", "uint8")] [];
        el "string" [("name", "user")] [el "lengthPrefix" [] [el "int" [("name", "len"); ("type", "uint8")] []]]];
     el "fields" [] [el "enum" [("name", "MsgId"); ("type", "uint8"); ("semanticType", "messageId")] [el "validValue" [("name", "M1"); ("val", "1")] []]];
     el "message" [("name", "M1"); ("id", "MsgId.M1")] [el "construct" [] construct]].
Definition proto_with (c : list node) : res protocol := validate false no_stod [doc_with c].
Definition root_with (c : list node) : nspace :=
  match proto_with c with Ok p => match sc_ns (nth 0 (pr_schemas p) no_schema) with (_, n) :: _ => n | [] => empty_ns [] [] [] end | _ => empty_ns [] [] [] end.
Definition ce_with (c : list node) : cond_env := mkCE (mkGE (mkGV 5 None 0) false) (fun _ => None) (map if_fields (ns_ifaces_list (root_with c))).
Definition condition_with (c : list node) : option cond := match ns_messages_list (root_with c) with [m] => m_construct m | _ => None end.
Definition all_of (l : list string) : list node := [el "and" [] (map (fun v => el "construct" [("value", v)] []) l)].
Definition ex_all : list node := all_of ["%Flags.b0"; "!%Flags.b1"; "%ver = Big"].
Definition ex_asked : list asked := [AskBit (T "Flags") (T "b0") true; AskBit (T "Flags") (T "b1") false; AskNum (T "ver") (T "Big")].
Definition ex_before : fields := fun n =>
  if list_eq_dec ascii_dec n (T "Flags") then Some (VBits [(T "b0", false); (T "b1", true); (T "b2", true)])
  else if list_eq_dec ascii_dec n (T "ver") then Some (VNum (T "std::uint8_t") [(T "Big", 200)] 7) else None.
Definition ex_iface_fields : list (list field) := Eval vm_compute in ce_interfaces (ce_with ex_all).
Lemma before_cases n v : ex_before n = Some v ->
  (n = T "Flags" /\ v = VBits [(T "b0", false); (T "b1", true); (T "b2", true)]) \/ (n = T "ver" /\ v = VNum (T "std::uint8_t") [(T "Big", 200)] 7).
Proof.
  unfold ex_before. destruct (list_eq_dec ascii_dec n (T "Flags")); [intro E; left; split; congruence|].
  destruct (list_eq_dec ascii_dec n (T "ver")); [intro E; right; split; congruence|discriminate].
Qed.
Lemma ex_member n fld : In fld (concat ex_iface_fields) -> f_name fld = n -> is_member (mkCE (mkGE (mkGV 5 None 0) false) (fun _ => None) ex_iface_fields) n fld.
Proof.
  intros I E. assert (forall fs g, In fs ex_iface_fields -> In g fs -> f_name g = n -> g = fld) as U.
  { intros fs g J K Eg. assert (In g (concat ex_iface_fields)) as K' by (apply in_concat; eauto). clear fs J K. rewrite <- Eg in E. clear n Eg.
    cbn in I, K'. repeat (destruct I as [<-|I]; [repeat (destruct K' as [<-|K']; [first [reflexivity|discriminate E]|]); destruct K'|]). destruct I. }
  split; [|split; [exact E|exact U]]. apply in_concat in I. destruct I as (fs & A & B). exists fs. auto.
Qed.
Lemma ex_holds : holds_fields (mkCE (mkGE (mkGV 5 None 0) false) (fun _ => None) ex_iface_fields) ex_before.
Proof.
  split.
  - intros n v E. destruct (before_cases _ _ E) as [[-> ->]|[-> ->]].
    + exists (nth 0 (concat ex_iface_fields) dummy_field). split; [apply ex_member; [cbn; auto|reflexivity]|].
      cbn. repeat constructor; vm_compute; tauto.
    + exists (nth 1 (concat ex_iface_fields) dummy_field). split; [apply ex_member; [cbn; auto|reflexivity]|].
      split; [reflexivity|]. split.
      * right. exists 8. split; [vm_compute; tauto|]. unfold unsigned_bits. lia.
      * constructor; [|constructor]. split; [reflexivity|]. split; [cbn; lia|]. cbn. split; [lia|reflexivity].
  - intros n v n' v' f E E' A A'. destruct (before_cases _ _ E) as [[-> _]|[-> _]], (before_cases _ _ E') as [[-> _]|[-> _]]; try reflexivity; exfalso.
    + pose proof (accessor_det _ _ _ A (access_accessor (T "Flags") ltac:(discriminate))). pose proof (accessor_det _ _ _ A' (access_accessor (T "ver") ltac:(discriminate))). subst f. discriminate.
    + pose proof (accessor_det _ _ _ A' (access_accessor (T "Flags") ltac:(discriminate))). pose proof (accessor_det _ _ _ A (access_accessor (T "ver") ltac:(discriminate))). subst f. discriminate.
Qed.
Ltac a_word := apply word_b_word; vm_compute; reflexivity.
Example C76_ex : is_Ok (proto_with ex_all) = true /\ holds_fields (ce_with ex_all) ex_before /\ Forall (meaningful ex_before) ex_asked /\ NoDup (map what ex_asked) /\
  exists c, condition_with ex_all = Some c /\ asks c ex_asked /\
    def_construct (ce_with ex_all) (T "M1") c = Ok (join [newline] (map T ["M1()"; "{"; "    Base::transportField_flags().setBitValue_b0(true);";
      "    Base::transportField_flags().setBitValue_b1(false);"; "    Base::transportField_ver().value() = static_cast<typename Base::TransportField_ver::ValueType>(200);";
      "    "; "}"; ""])).
Proof.
  split; [vm_compute; reflexivity|]. split; [replace (ce_with ex_all) with (mkCE (mkGE (mkGV 5 None 0) false) (fun _ => None) ex_iface_fields) by (unfold ce_with; f_equal; vm_compute; reflexivity); exact ex_holds|].
  split.
  - apply Forall_cons; [|apply Forall_cons; [|apply Forall_cons; [|apply Forall_nil]]].
    + split; [a_word|]. split; [a_word|]. eexists. split; [reflexivity|discriminate].
    + split; [a_word|]. split; [a_word|]. eexists. split; [reflexivity|discriminate].
    + split; [a_word|]. exists (T "std::uint8_t"), [(T "Big", 200)], 7, 200. split; [reflexivity|].
      assert (identifier (T "Big")) as Id by (split; [a_word|eexists; split; [reflexivity|apply in_b_In; vm_compute; reflexivity]]).
      split; [right; split; [exact Id|reflexivity]|]. split; [right; exists 8; split; [vm_compute; tauto|unfold unsigned_bits; lia]|]. lia.
  - split; [repeat constructor; cbn; intuition discriminate|].
    exists (CList true [CExpr [] [] (T "%Flags.b0"); CExpr [] (T "!") (T "%Flags.b1"); CExpr (T "%ver") (T "=") (T "Big")]).
    split; [vm_compute; reflexivity|]. split; [|vm_compute; reflexivity].
    apply (asks_all _ [[AskBit (T "Flags") (T "b0") true]; [AskBit (T "Flags") (T "b1") false]; [AskNum (T "ver") (T "Big")]]).
    apply Forall2_cons; [|apply Forall2_cons; [|apply Forall2_cons; [|apply Forall2_nil]]]; [apply (asks_bit (T "Flags") (T "b0"))|apply (asks_not_bit (T "Flags") (T "b1"))|apply (asks_num (T "ver"))].
Qed.

(** ** Where the claim does not hold for accepted schemas *)
(** a condition on the length of a field is accepted, and no statement is produced for it: the constructor leaves the length as it was *)
Definition size_asked : list node := all_of ["%ver = 1"; "%#user = 3"].
Definition size_before : fields := fun n =>
  if list_eq_dec ascii_dec n (T "ver") then Some (VNum (T "std::uint8_t") [(T "Big", 200)] 7) else if list_eq_dec ascii_dec n (T "user") then Some (VText []) else None.
Theorem C76_size_refuted : is_Ok (proto_with size_asked) = true /\
  condition_with size_asked = Some (CList true [CExpr (T "%ver") (T "=") (T "1"); CExpr (T "%#user") (T "=") (T "3")]) /\
  forall c, condition_with size_asked = Some c -> exists code sts, internal_construct (ce_with size_asked) c = Ok code /\ tokens code = tokens (print_cs sts) /\
    forall s', sets_all size_before sts s' -> s' (T "user") = Some (VText []).
Proof.
  split; [vm_compute; reflexivity|]. split; [vm_compute; reflexivity|]. intros c E.
  assert (condition_with size_asked = Some (CList true [CExpr (T "%ver") (T "=") (T "1"); CExpr (T "%#user") (T "=") (T "3")])) as E' by (vm_compute; reflexivity).
  rewrite E' in E. injection E as <-. eexists. exists [SetNum (T "ver") (T "1")]. split; [vm_compute; reflexivity|]. split; [vm_compute; reflexivity|].
  intros s' R. inversion R as [|? s1 ? ? ? S1 R1]; subst. inversion R1; subst. inversion S1 as [|? ? f' ty names z ? m y (En & An & _) Cm Cy]; subst.
  unfold update. destruct (list_eq_dec ascii_dec (T "user") f') as [<-|D]; [|reflexivity]. discriminate En.
Qed.
Print Assumptions C76_size_refuted.
(** the type a text is converted to is missing *)
Definition text_asked : list node := all_of ["%ver = 1"; "%user = abc"].
Theorem C76_text_refuted : is_Ok (proto_with text_asked) = true /\
  option_map (internal_construct (ce_with text_asked)) (condition_with text_asked) =
  Some (Ok (join [newline] (map T ["Base::transportField_ver().value() = static_cast<typename Base::TransportField_ver::ValueType>(1);";
    "Base::transportField_user().value() = static_cast<typename Base::>(""abc"");"; ""]))).
Proof. split; vm_compute; reflexivity. Qed.
Print Assumptions C76_text_refuted.
(** the other field is not taken from the base class, which depends on a parameter of the template: it is not found *)
Definition field_asked : list node := all_of ["%Flags.b0"; "%ver = %old"].
Theorem C76_other_field_refuted : is_Ok (proto_with field_asked) = true /\
  option_map (internal_construct (ce_with field_asked)) (condition_with field_asked) =
  Some (Ok (join [newline] (map T ["Base::transportField_flags().setBitValue_b0(true);";
    "Base::transportField_ver().value() = static_cast<typename Base::TransportField_ver::ValueType>(transportField_old().getValue());"; ""]))).
Proof. split; vm_compute; reflexivity. Qed.
Print Assumptions C76_other_field_refuted.
(** asked for twice, only the last one holds; the condition is accepted *)
Definition twice_asked : list node := all_of ["%ver = 1"; "%ver = 2"].
Theorem C76_twice_refuted : is_Ok (proto_with twice_asked) = true /\
  option_map (internal_construct (ce_with twice_asked)) (condition_with twice_asked) =
  Some (Ok (join [newline] (map T ["Base::transportField_ver().value() = static_cast<typename Base::TransportField_ver::ValueType>(1);";
    "Base::transportField_ver().value() = static_cast<typename Base::TransportField_ver::ValueType>(2);"; ""]))).
Proof. split; vm_compute; reflexivity. Qed.
Print Assumptions C76_twice_refuted.
