(** Specification vocabulary: what a text names among the global elements of the schemas,
    and for which messages code is generated. *)
From Verif.Model Require Import Base Common Message Frame Protocol GenComms CommsFactory.
From Verif.Spec Require Import Texts ProtocolSpec.

(** [ref], read in the schema number [cur], names [name] in the namespace [path] of the schema number [i]:
    it is the path and the name separated by dots, with '@', the name of the schema and a dot before it unless
    the schema is [cur].  For the global namespace a leading dot is allowed. *)
Definition within (path : list txt) (name rest : txt) : Prop :=
  rest = path_text path name \/ path = [[]] /\ rest = "."%char :: name.
Definition names_place (schemas : list schema) (cur : nat) (ref : txt) (i : nat) (path : list txt) (name : txt) : Prop :=
  exists rest, within path name rest /\
    (i = cur /\ ref = rest \/ exists sc, nth_error schemas i = Some sc /\ ref = "@"%char :: sc_name sc ++ "."%char :: rest).

(** code is generated for the message [m] in the namespace [path] of the schema number [i] *)
Definition generated (l : list (nat * gen_message)) (i : nat) (path : list txt) (m : message) : Prop :=
  In (i, ((EMessage, m_name m) :: rev (map (fun k => (ENamespace, k)) path), m)) l.
