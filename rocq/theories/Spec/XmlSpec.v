(** Specification of how an XML element supplies the value of a property: as an attribute
    or as a child element, whose value is its "value" attribute or its text. *)
From Coq Require Import Ascii String List.
From Verif.Model Require Import Xml.
From Verif.Spec Require Import Texts.
Import ListNotations.

Definition trimmed (s t : txt) : Prop := exists a b, s = a ++ t ++ b /\ Forall blank a /\ Forall blank b /\
  first_not blank t /\ last_not blank t.
Definition empty_text (s : txt) : Prop := Forall blank s.

(** the attributes of [n] called [k], in the order written *)
Inductive attrs_called (k : txt) : list (txt * txt) -> list txt -> Prop :=
| ac_nil : attrs_called k [] []
| ac_this v l vs : attrs_called k l vs -> attrs_called k ((k, v) :: l) (v :: vs)
| ac_other k' v l vs : k' <> k -> attrs_called k l vs -> attrs_called k ((k', v) :: l) vs.
(** the text of an element without child elements: its first text node *)
Inductive text_of : list node -> txt -> Prop :=
| to_nil : text_of [] []
| to_text t l : text_of (TextNode t :: l) t
| to_other l t : text_of l t -> text_of (OtherNode :: l) t.
Definition element_text (n : node) (t : txt) : Prop :=
  (exists nm a ch, In (Elem nm a ch) (n_children n)) /\ t = [] \/
  (forall m, In m (n_children n) -> forall nm a ch, m <> Elem nm a ch) /\ text_of (n_children n) t.

(** the value of a property written as the child element [m] *)
Inductive child_value (m : node) : txt -> Prop :=
| cv_attr a vs s t : attrs_called (T "value") (n_attrs m) (a :: vs) -> trimmed a s -> s <> [] ->
    element_text m t -> empty_text t -> child_value m s
| cv_text t s u : (forall a vs, attrs_called (T "value") (n_attrs m) (a :: vs) -> empty_text a) ->
    element_text m t -> trimmed t s -> squeezed s u -> u <> [] -> child_value m u.

(** the child elements called [k], in the order written *)
Inductive elements_called (k : txt) : list node -> list node -> Prop :=
| ec_nil : elements_called k [] []
| ec_this a ch l ms : elements_called k l ms -> elements_called k (Elem k a ch :: l) (Elem k a ch :: ms)
| ec_other m l ms : (forall a ch, m <> Elem k a ch) -> elements_called k l ms -> elements_called k (m :: l) ms.

(** [supplied n k vs]: the values the element [n] supplies for the property [k] *)
Definition supplied (n : node) (k : txt) (vs : list txt) : Prop :=
  exists raw as_ ms cs, vs = as_ ++ cs /\
    attrs_called k (n_attrs n) raw /\ Forall2 trimmed raw as_ /\
    elements_called k (n_children n) ms /\ Forall2 child_value ms cs.
