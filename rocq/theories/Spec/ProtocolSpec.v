(** Specification vocabulary for schemas, namespaces and global elements. *)
From Verif.Model Require Import Base Common Xml Units Field FieldCommon Composite Message Frame Protocol.
From Verif.Spec Require Import Texts IntSpec FieldSpec.

(** an accepted field, a part of one or a copy of these (messages and interfaces copy the fields of others) *)
Inductive derived : field -> Prop :=
| dr_accepted f : accepted f -> derived f
| dr_part f g : derived f -> In g (parts f) -> derived g
| dr_clone f : derived f -> derived (clone f)
| dr_bump v f : derived f -> derived (bump_since v f).

Definition env_ok (e : env) : Prop := env_num_ok e /\ forall s g, e_find e s = Some g -> accepted g.
(** accepted interfaces and messages: parsed by a protocol whose elements were accepted before *)
Inductive accepted_iface : iface -> Prop :=
| ai me n i : env_ok (me_env me) -> (forall s j, me_iface me s = Some j -> accepted_iface j) ->
    iface_parse me n = Ok i -> accepted_iface i.
Inductive accepted_message : message -> Prop :=
| am me n m : env_ok (me_env me) -> (forall s j, me_iface me s = Some j -> accepted_iface j) ->
    (forall s k, me_msg me s = Some k -> accepted_message k) ->
    message_parse me n = Ok m -> accepted_message m.
Definition menv_ok (me : menv) : Prop :=
  env_ok (me_env me) /\ (forall s j, me_iface me s = Some j -> accepted_iface j) /\
  (forall s m, me_msg me s = Some m -> accepted_message m) /\ Forall accepted_iface (me_ifaces me).
Definition accepted_frame (f : frame) : Prop := exists me n, menv_ok me /\ frame_parse me n = Ok f.

(** [namespace_at l path n]: following the names of [path] (outermost first) from the namespaces [l] leads to [n] *)
Inductive namespace_at : list (str * nspace) -> list txt -> nspace -> Prop :=
| na_here l k n : In (k, n) l -> namespace_at l [k] n
| na_sub l k n path m : In (k, n) l -> namespace_at (ns_subs n) path m -> namespace_at l (k :: path) m.

Definition field_at (sc : schema) (path : list txt) (f : field) : Prop :=
  exists n, namespace_at (sc_ns sc) path n /\ In f (ns_fields_list n).
Definition message_at (sc : schema) (path : list txt) (m : message) : Prop :=
  exists n, namespace_at (sc_ns sc) path n /\ In m (ns_messages_list n).
Definition iface_at (sc : schema) (path : list txt) (i : iface) : Prop :=
  exists n, namespace_at (sc_ns sc) path n /\ In i (ns_ifaces_list n).
Definition frame_at (sc : schema) (path : list txt) (f : frame) : Prop :=
  exists n, namespace_at (sc_ns sc) path n /\ In f (ns_frames_list n).

(** names that differ at most in the case of the first letter *)
Definition same_first_case_ignored (a b : txt) : Prop :=
  a = b \/ exists x y t, a = x :: t /\ b = y :: t /\ tolower x = tolower y.
(** the text of a reference within a schema; the global namespace has the path [""] *)
Definition path_text (path : list txt) (name : txt) : txt :=
  match path with [[]] => name | _ => join (T ".") (path ++ [name]) end.
(** the protocol while the schema number [i] is being parsed *)
Definition at_schema (i : nat) (s : protocol) : protocol := mkProtocol (pr_schemas s) i (pr_multi s) (pr_stod s).
