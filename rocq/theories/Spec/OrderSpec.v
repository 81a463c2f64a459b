(** Specification of the stack of layers which the generated code nests: the first layer is the outermost one. *)
From Verif.Model Require Import Base Common Message Frame GenOrder.
From Verif.Spec Require Import Texts FrameSpec.

(** what is on the wire: a layer declared after the payload (a suffix) puts its field behind what its inner layers write,
    any other layer before *)
Fixpoint wire (suffix : nat -> Prop) (stack out : list nat) : Prop :=
  match stack with
  | [] => out = []
  | x :: inner => exists o, wire suffix inner o /\ (suffix x /\ out = o ++ [x] \/ ~ suffix x /\ out = x :: o)
  end.
(** the layer [x] is inside the layer [i] of the stack *)
Definition inside_of (stack : list nat) (i x : nat) : Prop := exists outer inner, stack = outer ++ i :: inner /\ In x inner.
(** the loop which arranges the layers comes to an end with the result [r]; it never ends *)
Definition finishes (f : frame) (sup : bool) (r : res (list nat)) : Prop :=
  exists turns, forall more, getCommsOrderOfLayers (turns + more) (fr_layers f) sup = Some r.
Definition never_finishes (f : frame) (sup : bool) : Prop := forall turns, getCommsOrderOfLayers turns (fr_layers f) sup = None.
(** what is said about the stack [o] of the frame [f] with the payload number [p]:
    a suffix layer which starts at the layer [j] (not after the payload) encloses all that is written from [j] up to itself, and nothing more;
    one which does not say where it starts (or starts at another suffix layer) encloses the payload, the suffix layers before it and what these enclose *)
Definition starts_at (f : frame) (i j : nat) : Prop :=
  exists l, layer_at f i l /\ layer_from l <> [] /\ named_at f (layer_from l) j.
Definition encloses (f : frame) (p : nat) (o : list nat) : Prop := forall i, (p < i < length (fr_layers f))%nat ->
  (forall j, starts_at f i j -> (j <= p)%nat -> forall x, inside_of o i x <-> (j <= x < i)%nat) /\
  (~ (exists j, starts_at f i j /\ (j <= p)%nat) -> forall x, inside_of o i x <-> (x < i)%nat /\ ((p <= x)%nat \/ exists k, (p < k < i)%nat /\ inside_of o k x)).
(** the checksum is in front of the data and extends until the layer [until] *)
Definition checks_until (l : layer) (until : txt) : Prop :=
  (exists a n from v, ly_spec l = SChecksum a n from until v) \/ exists from, ly_spec l = SCustom LChecksum from until.
(** the layers for which there is no place in the stack; [sync]: <sync> may be a suffix *)
Inductive no_place (f : frame) (p : nat) (sync : Prop) : Prop :=
| Until i l until : layer_at f i l -> checks_until l until -> until <> [] -> ~ named_at f until p -> no_place f p sync
| CustomSuffix i l sem from until : layer_at f i l -> (p < i)%nat -> ly_spec l = SCustom sem from until -> sem <> LChecksum -> no_place f p sync
| SyncSuffix i l seek esc vbr from : layer_at f i l -> (p < i)%nat -> ly_spec l = SSync seek esc vbr from -> ~ sync -> no_place f p sync.
