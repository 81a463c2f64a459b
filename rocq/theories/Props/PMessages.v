(** C29, C30: message ids and the list of all messages. *)
From Coq Require Import Sorting.Sorted Sorting.Permutation.
From Verif.Model Require Import Base Common Xml Units Field FieldCommon IntField EnumField SetField FloatField OptCond Composite Message Frame Protocol.
From Verif.Spec Require Import Texts IntSpec XmlSpec FieldSpec ProtocolSpec Ex.
From Verif.Proofs Require Import BaseFacts CommonFacts RangeFacts MapFacts ProtocolFacts RefFacts MsgFacts.
From Verif.Props Require Import ExProtocol.
Local Open Scope string_scope. Local Open Scope Z_scope. Local Open Scope list_scope.

(** ** C29 *)
(** the messages of the namespace [n] and of the namespaces directly in it *)
Definition messages_two_levels (n : nspace) : list message :=
  ns_messages_list n ++ flat_map (fun s => ns_messages_list (snd s)) (ns_subs n).
(** Missing: messages of different top level namespaces and of deeper ones are not compared (refuted below) *)
Theorem C29_ids_unique_partial : forall multi stod docs s sc k n, validate multi stod docs = Ok s -> In sc (pr_schemas s) ->
  In (k, n) (sc_ns sc) -> sc_nonUnique sc = false ->
  ForallOrdPairs (fun a b => m_id a <> m_id b) (messages_two_levels n).
Proof.
  intros multi stod docs s sc k n H Hs Hn U. pose proof (validate_messages_ok _ _ _ _ H _ _ _ Hs Hn) as V. rewrite U in V. apply ids_pairs in V; [|apply msg_sorted].
  apply (pairs_perm _ _ (messages_two_levels n)) in V; [|intuition congruence|apply sort_perm].
  induction V as [|a l F O IH]; constructor; [|exact IH]. eapply Forall_impl; [|exact F]. intros b [X|[X _]]; [exact X|discriminate].
Qed.
Print Assumptions C29_ids_unique_partial.
Theorem C29_orders_differ_partial : forall multi stod docs s sc k n, validate multi stod docs = Ok s -> In sc (pr_schemas s) ->
  In (k, n) (sc_ns sc) ->
  ForallOrdPairs (fun a b => m_id a = m_id b -> m_order a <> m_order b) (messages_two_levels n).
Proof.
  intros multi stod docs s sc k n H Hs Hn. pose proof (validate_messages_ok _ _ _ _ H _ _ _ Hs Hn) as V. apply ids_pairs in V; [|apply msg_sorted].
  apply (pairs_perm _ _ (messages_two_levels n)) in V; [|intuition congruence|apply sort_perm].
  induction V as [|a l F O IH]; constructor; [|exact IH]. eapply Forall_impl; [|exact F]. intros b [X|[_ X]] E; [congruence|exact X].
Qed.
Print Assumptions C29_orders_differ_partial.
(** conversely, two equal ids in a namespace are rejected, unless allowed *)
Theorem C29_duplicate_rejected : forall multi stod docs s sc k n a b, validate multi stod docs = Ok s -> In sc (pr_schemas s) ->
  In (k, n) (sc_ns sc) -> sc_nonUnique sc = false -> In a (messages_two_levels n) -> In b (messages_two_levels n) ->
  m_id a = m_id b -> a = b.
Proof.
  intros multi stod docs s sc k n a b H Hs Hn U Ha Hb E. pose proof (C29_ids_unique_partial _ _ _ _ _ _ _ H Hs Hn U) as V.
  revert Ha Hb. induction V as [|x l F O IH]; [intros []|]. rewrite Forall_forall in F. intros [<-|Ha] [<-|Hb]; auto.
  - destruct (F _ Hb). exact E.
  - destruct (F _ Ha). congruence.
Qed.
Print Assumptions C29_duplicate_rejected.

Definition msg (name id : string) : node := el "message" [("name", name); ("id", id)] [].
(** two messages of the same schema with the same id: in different top level namespaces *)
Definition ex_two_ns : list node :=
  [el "schema" [("name", "s")] [msg "A" "1"; el "ns" [("name", "n")] [msg "B" "1"]]].
Theorem C29_unique_refuted : ~ (forall multi stod docs s sc p q a b, validate multi stod docs = Ok s -> In sc (pr_schemas s) ->
  sc_nonUnique sc = false -> message_at sc p a -> message_at sc q b -> m_id a = m_id b -> m_name a = m_name b).
Proof.
  intros H. assert (V : exists s, validate false no_stod ex_two_ns = Ok s) by (eexists; vm_compute; reflexivity). destruct V as [s V].
  assert (W : s = match validate false no_stod ex_two_ns with Ok s => s | _ => s end) by (rewrite V; reflexivity).
  assert (exists sc n1 n2 a b, pr_schemas s = [sc] /\ sc_ns sc = [([], n1); (T "n", n2)] /\ ns_messages_list n1 = [a] /\ ns_messages_list n2 = [b] /\
     sc_nonUnique sc = false /\ m_id a = 1 /\ m_id b = 1 /\ m_name a = T "A" /\ m_name b = T "B") as (sc & n1 & n2 & a & b & E1 & E2 & E3 & E4 & E5 & E6 & E7 & E8 & E9).
  { vm_compute in V. injection V as <-. do 5 eexists. vm_compute. repeat split. }
  assert (X : m_name a = m_name b).
  { apply (H false no_stod ex_two_ns s sc [[]] [T "n"] a b V); auto.
    - rewrite E1. left. reflexivity.
    - exists n1. split; [constructor; rewrite E2; left; reflexivity|rewrite E3; left; reflexivity].
    - exists n2. split; [constructor; rewrite E2; right; left; reflexivity|rewrite E4; left; reflexivity].
    - congruence. }
  rewrite E8, E9 in X. discriminate.
Qed.
Print Assumptions C29_unique_refuted.
Definition ex_ids (allowed o1 o2 : string) : list node :=
  [el "schema" [("name", "s"); ("nonUniqueMsgIdAllowed", allowed)]
     [el "ns" [("name", "n")] [el "message" [("name", "A"); ("id", "1"); ("order", o1)] []; msg "C" "0";
                               el "ns" [("name", "m")] [el "message" [("name", "B"); ("id", "1"); ("order", o2)] []]]]].
Example C29_ex : validate false no_stod (ex_ids "false" "0" "1") = Err /\ validate false no_stod (ex_ids "true" "1" "1") = Err /\
  is_Ok (validate false no_stod (ex_ids "true" "0" "1")) = true.
Proof. vm_compute. auto. Qed.

(** ** C30 *)
Theorem C30_sorted : forall sc, StronglySorted (fun a b => m_id a < m_id b \/ m_id a = m_id b /\ m_order a <= m_order b) (all_messages sc).
Proof. intros sc. apply msg_sorted. Qed.
Print Assumptions C30_sorted.
(** every message of the top level namespaces, once. Missing: those of nested namespaces (refuted below) *)
Theorem C30_complete_partial : forall sc, Permutation (all_messages sc) (flat_map (fun n => ns_messages_list (snd n)) (sc_ns sc)).
Proof. intros sc. apply sort_perm. Qed.
Print Assumptions C30_complete_partial.
Theorem C30_only_messages : forall sc m, In m (all_messages sc) -> exists k, message_at sc [k] m.
Proof.
  intros sc m H. apply (Permutation_in _ (C30_complete_partial sc)) in H. apply in_flat_map in H as ([k n] & Hn & H). exists k, n. split; [constructor; exact Hn|exact H].
Qed.
Print Assumptions C30_only_messages.
Definition ex_nested : list node :=
  [el "schema" [("name", "s")] [el "ns" [("name", "n")] [msg "A" "1"; el "ns" [("name", "m")] [msg "B" "0"]]]].
Theorem C30_complete_refuted : ~ (forall multi stod docs s sc p m, validate multi stod docs = Ok s -> In sc (pr_schemas s) ->
  message_at sc p m -> In m (all_messages sc)).
Proof.
  intros H. assert (V : exists s, validate false no_stod ex_nested = Ok s) by (eexists; vm_compute; reflexivity). destruct V as [s V].
  assert (exists sc n1 n2 a b, pr_schemas s = [sc] /\ sc_ns sc = [(T "n", n1)] /\ ns_subs n1 = [(T "m", n2)] /\ ns_messages_list n1 = [a] /\ ns_messages_list n2 = [b] /\
     m_id a = 1 /\ m_id b = 0) as (sc & n1 & n2 & a & b & E1 & E2 & E3 & E4 & E5 & E6 & E7).
  { vm_compute in V. injection V as <-. do 5 eexists. vm_compute. repeat split. }
  assert (X : In b (all_messages sc)).
  { apply (H false no_stod ex_nested s sc [T "n"; T "m"] b V).
    - rewrite E1. left. reflexivity.
    - exists n2. split; [|rewrite E5; left; reflexivity]. econstructor; [rewrite E2; left; reflexivity|]. constructor. rewrite E3. left. reflexivity. }
  unfold all_messages in X. rewrite E2 in X. cbn [flat_map snd] in X. rewrite E4 in X. cbn in X. destruct X as [->|[]]. congruence.
Qed.
Print Assumptions C30_complete_refuted.
Example C30_ex : map m_name (all_messages (ex_schema 0)) = [T "M1"; T "M2"].
Proof. vm_compute. reflexivity. Qed.
