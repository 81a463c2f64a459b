(** Aliases: an additional name for a field of a bundle, a message or an interface, or for one
    deeper inside of it. *)
From Verif.Model Require Import Base Common Xml Units Field FieldCommon OptCond Composite Message.
From Verif.Spec Require Import Texts XmlSpec FieldSpec CondSpec ProtocolSpec AttrSpec.

(** [reaches fs path g]: the path of names separated by dots leads to [g], through bundles and bitfields *)
Inductive reaches : list field -> txt -> field -> Prop :=
| rc_here fs f : In f fs -> reaches fs (f_name f) f
| rc_bundle fs c ms als vc rest g : In (FBundle c ms als vc) fs -> reaches ms rest g ->
    reaches fs (c_name c ++ "."%char :: rest) g
| rc_bitfield fs c en ms vc rest g : In (FBitfield c en ms vc) fs -> reaches ms rest g ->
    reaches fs (c_name c ++ "."%char :: rest) g.

(** the field an alias stands for is there *)
Definition has_target (fs : list field) (a : alias) : Prop := exists g, reaches fs (a_fieldName a) g.
Definition plain (path : txt) : Prop := ~ In "."%char path.

(** identifiers, no two of them equal (up to the case of the first letter) *)
Definition proper_names (als : list alias) : Prop :=
  Forall (fun a => identifier (a_name a)) als /\
  ForallOrdPairs (fun a b => ~ same_first_case_ignored (a_name a) (a_name b)) als.
(** no alias has the name of a field *)
Definition apart (fs : list field) (als : list alias) : Prop :=
  forall a f, In a als -> In f fs -> ~ same_first_case_ignored (a_name a) (f_name f).

(** [alias_element e n a]: the alias [a] is what the element <alias name="..." field="$..."/> says *)
Definition alias_element (e : env) (n : node) (a : alias) : Prop :=
  supplied n (T "name") [a_name a] /\ supplied n (T "field") ["$"%char :: a_fieldName a] /\
  given n (T "description") (text_read e) [] (a_description a).
(** the aliases written in the element [n] *)
Definition aliases_written (e : env) (n : node) (als : list alias) : Prop :=
  exists ms, elements_called (T "alias") (n_children n) ms /\ Forall2 (alias_element e) ms als.
