(** Specification of platforms: which a schema declares, which a message selects. *)
From Verif.Model Require Import Base Common Xml Units Field FieldCommon IntField EnumField SetField FloatField OptCond Composite Message Frame Protocol.
From Verif.Spec Require Import Texts IntSpec XmlSpec FieldSpec ProtocolSpec DeclSpec.

(** [x] is one of the comma separated items of [w], blanks around it removed *)
Definition item_of (w x : txt) : Prop :=
  exists a p b, w = a ++ p ++ b /\ ~ In ","%char p /\ (a = [] \/ exists a', a = a' ++ T ",") /\ (b = [] \/ exists b', b = T "," ++ b') /\ trimmed p x.
(** the platforms the file with the root [d] declares: <platform name="..."/> in <schema> or in its <platforms> *)
Definition declares_platform (d : node) (x : txt) : Prop :=
  exists m vs, supplied m (T "name") (x :: vs) /\ n_name m = T "platform" /\
    (In m (n_children d) \/ exists q, In q (n_children d) /\ n_name q = T "platforms" /\ In m (n_children q)).
