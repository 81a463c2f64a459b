(** Specification vocabulary for fields of every kind: which fields are accepted, and
    what a field consists of. *)
From Verif.Model Require Import Base Common Xml Units Field FieldCommon Composite.
From Verif.Spec Require Import Texts IntSpec CondSpec.

(** [accepted f]: some element is accepted as the field [f] by a protocol whose
    already defined fields were accepted before it *)
Inductive accepted : field -> Prop :=
| acc e x n f : env_num_ok e -> (forall s g, e_find e s = Some g -> accepted g) ->
    parse_field e x n = Ok f -> accepted f.

Definition opt_part (o : option (bool * field)) : list field := match o with Some (_, g) => [g] | None => [] end.
(** the fields a field directly consists of or refers to *)
Definition parts (f : field) : list field :=
  match f with
  | FInt _ _ | FEnum _ _ | FSet _ _ | FFloat _ _ => []
  | FBitfield _ _ ms _ | FBundle _ ms _ _ | FVariant _ _ ms => ms
  | FString _ _ pre | FData _ _ pre => opt_part pre
  | FList _ _ el a b d t => snd el :: opt_part a ++ opt_part b ++ opt_part d ++ opt_part t
  | FRef _ _ t => [t]
  | FOptional _ _ _ g _ => [g]
  end.
(** [part_of g f]: the field [f] is [g] or contains it at any depth *)
Inductive part_of : field -> field -> Prop :=
| part_self f : part_of f f
| part_sub g h f : In h (parts f) -> part_of g h -> part_of g f.

(** a condition tree: <and>/<or> have two or more sub-conditions *)
Inductive well_formed_cond : cond -> Prop :=
| wf_compare l op r : In op operators -> operand l -> r <> [] -> well_formed_cond (CExpr l op r)
| wf_single op r : op = [] \/ op = ["!"%char] -> operand r -> well_formed_cond (CExpr [] op r)
| wf_list a cs : (2 <= length cs)%nat -> Forall well_formed_cond cs -> well_formed_cond (CList a cs).

Definition own_part (o : option (bool * field)) : list field := match o with Some (true, g) => [g] | _ => [] end.
(** the fields written inside the element of a field (as opposed to those it refers to) *)
Definition own_parts (f : field) : list field :=
  match f with
  | FBitfield _ _ ms _ | FBundle _ ms _ _ | FVariant _ _ ms => ms
  | FString _ _ pre | FData _ _ pre => own_part pre
  | FList _ _ el a b d t => own_part (Some el) ++ own_part a ++ own_part b ++ own_part d ++ own_part t
  | FOptional _ _ true g _ => [g]
  | _ => []
  end.
Inductive inside : field -> field -> Prop :=
| inside_self f : inside f f
| inside_own g h f : In h (own_parts f) -> inside g h -> inside g f.
(** no element inside [n], nor [n] itself, has the property "reuse" *)
Inductive without_reuse : node -> Prop :=
| wr_elem n : (forall k v, In (k, v) (n_attrs n) -> k <> T "reuse") ->
    (forall m, In m (n_children n) -> n_name m <> T "reuse") ->
    (forall m, In m (n_children n) -> without_reuse m) -> without_reuse n.
