(** What the elements <and>, <or> and those with a single condition stand for. *)
From Verif.Model Require Import Base Xml Field.
From Verif.Spec Require Import Texts CondSpec XmlSpec.

(** the condition [c] a text stands for *)
Inductive text_cond (t : txt) : cond -> Prop :=
| tc_compare l op r : comparison_text t l op r -> text_cond t (CExpr l op r)
| tc_single op r : single_text t op r -> text_cond t (CExpr [] op r).
(** [tree_cond k n c]: the element [n] stands for [c]; single conditions are in elements called [k] *)
Inductive tree_cond (k : txt) : node -> cond -> Prop :=
| tr_and a ch cs : (2 <= length cs)%nat -> items_cond k ch cs -> tree_cond k (Elem (T "and") a ch) (CList true cs)
| tr_or a ch cs : (2 <= length cs)%nat -> items_cond k ch cs -> tree_cond k (Elem (T "or") a ch) (CList false cs)
with items_cond (k : txt) : list node -> list cond -> Prop :=
| it_nil : items_cond k [] []
| it_text t l cs : items_cond k l cs -> items_cond k (TextNode t :: l) cs
| it_other l cs : items_cond k l cs -> items_cond k (OtherNode :: l) cs
| it_single a ch t c l cs : child_value (Elem k a ch) t -> text_cond t c -> items_cond k l cs -> items_cond k (Elem k a ch :: l) (c :: cs)
| it_tree m c l cs : tree_cond k m c -> items_cond k l cs -> items_cond k (m :: l) (c :: cs).
(** [written_cond n k m trees c]: the condition the element [n] has, either as its property [k], or as the only
    one of the elements [trees]; [None] when it has neither *)
Inductive written_cond (n : node) (k : txt) (trees : list node) : option cond -> Prop :=
| wc_none : supplied n k [] -> trees = [] -> written_cond n k trees None
| wc_text t c : supplied n k [t] -> trees = [] -> text_cond t c -> written_cond n k trees (Some c)
| wc_tree m c : supplied n k [] -> trees = [m] -> tree_cond k m c -> written_cond n k trees (Some c).
(** the child elements <and> and <or> *)
Inductive and_or : list node -> list node -> Prop :=
| ao_nil : and_or [] []
| ao_this nm a ch l ms : nm = T "and" \/ nm = T "or" -> and_or l ms -> and_or (Elem nm a ch :: l) (Elem nm a ch :: ms)
| ao_other m l ms : (forall nm a ch, m = Elem nm a ch -> nm <> T "and" /\ nm <> T "or") -> and_or l ms -> and_or (m :: l) ms.
