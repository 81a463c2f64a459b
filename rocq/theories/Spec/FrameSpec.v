(** Specification of the order of layers in a frame. *)
From Verif.Model Require Import Base Common Xml Units Field FieldCommon Composite Message Frame.
From Verif.Spec Require Import Texts.

(** the layer [l] is number [i] of the frame [f] *)
Definition layer_at (f : frame) (i : nat) (l : layer) : Prop := nth_error (fr_layers f) i = Some l.
(** number [i] is the (first) layer called [name] *)
Definition named_at (f : frame) (name : txt) (i : nat) : Prop :=
  (exists l, layer_at f i l /\ ly_name l = name) /\ forall j l, (j < i)%nat -> layer_at f j l -> ly_name l <> name.
Definition payload_at (f : frame) (p : nat) : Prop := exists l, layer_at f p l /\ ly_kind l = LPayload.
(** [from] and [until] of the checksum layer number [i] *)
Definition checksum_place (f : frame) (i : nat) (from until : txt) : Prop :=
  (from <> [] \/ until <> []) /\
  (from <> [] -> exists j, named_at f from j /\ (j < i)%nat) /\
  (until <> [] -> exists j, named_at f until j /\ (i < j)%nat).
(** the property "from" of a <sync> or <checksum> layer *)
Definition suffix_from (l : layer) (from : txt) : Prop :=
  (exists a n u v, ly_spec l = SChecksum a n from u v) \/ (exists s e v, ly_spec l = SSync s e v from).
