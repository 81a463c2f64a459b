(** Specification of where the fields of a protocol are. *)
From Verif.Model Require Import Base Common Xml Units Field FieldCommon IntField Composite Message Frame Protocol.
From Verif.Spec Require Import Texts IntSpec FieldSpec ProtocolSpec.

(** [field_in s f]: [f] is a global field, a field of a message, an interface or a layer, or a part of such a field *)
Inductive field_in (s : protocol) : field -> Prop :=
| in_global sc path f : In sc (pr_schemas s) -> field_at sc path f -> field_in s f
| in_message sc path m f : In sc (pr_schemas s) -> message_at sc path m -> In f (m_fields m) -> field_in s f
| in_iface sc path i f : In sc (pr_schemas s) -> iface_at sc path i -> In f (if_fields i) -> field_in s f
| in_layer sc path fr l own f : In sc (pr_schemas s) -> frame_at sc path fr -> In l (fr_layers fr) -> ly_field l = Some (own, f) -> field_in s f
| in_escape sc path fr l seek own f vbr from : In sc (pr_schemas s) -> frame_at sc path fr -> In l (fr_layers fr) ->
    ly_spec l = SSync seek (Some (own, f)) vbr from -> field_in s f
| in_part f g : field_in s f -> In g (parts f) -> field_in s g.
