(** What the generated code calls the elements of a protocol. *)
From Verif.Model Require Import Base Common Xml Field Message Frame Protocol GenComms.
From Verif.Spec Require Import Texts ProtocolSpec.

(** [element sc path t name]: the schema defines, in the namespace [path], an
    element of kind [t] called [name] *)
Definition element (sc : schema) (path : list txt) (t : elem_type) (name : txt) : Prop :=
  match t with
  | EField => exists f, field_at sc path f /\ f_name f = name
  | EMessage => exists m, message_at sc path m /\ m_name m = name
  | EInterface => exists i, iface_at sc path i /\ if_name i = name
  | EFrame => exists f, frame_at sc path f /\ fr_name f = name
  | _ => False
  end.
(** the element and its parents, innermost first *)
Definition parents_of (path : list txt) (t : elem_type) (name : txt) : elem_path :=
  (t, name) :: rev (map (fun k => (ENamespace, k)) path).
(** the folders the generator itself puts elements in *)
Definition kind_folder (k : txt) : Prop := k = T "field" \/ k = T "message" \/ k = T "frame".
