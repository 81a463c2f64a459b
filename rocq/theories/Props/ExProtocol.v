(** Concrete documents for the examples next to the theorems about whole protocols. *)
From Verif.Model Require Import Base Common Xml Units Field FieldCommon IntField EnumField SetField FloatField OptCond Composite Message Frame Protocol.
From Verif.Spec Require Import Texts IntSpec XmlSpec FieldSpec ProtocolSpec Ex.
Local Open Scope string_scope. Local Open Scope Z_scope. Local Open Scope list_scope.

Definition no_stod (_ : txt) : option spec_float := None.
(** two files of the schema "one" and a file of the schema "two" that refers to it *)
Definition ex_doc1 : node :=
  el "schema" [("name", "one"); ("version", "3"); ("endian", "big")]
    [el "fields" [] [el "enum" [("name", "MsgId"); ("type", "uint8"); ("semanticType", "messageId")]
                       [el "validValue" [("name", "M1"); ("val", "1")] []; el "validValue" [("name", "M2"); ("val", "2")] []];
                     el "int" [("name", "Len"); ("type", "uint16"); ("semanticType", "length")] []];
     el "ns" [("name", "a")]
       [el "ns" [("name", "b")]
          [el "fields" [] [el "int" [("name", "f1"); ("type", "uint16"); ("defaultValue", "5")] []]];
        el "message" [("name", "M2"); ("id", "MsgId.M2")] [el "ref" [("name", "x"); ("field", "a.b.f1")] []]]].
Definition ex_doc2 : node :=
  el "schema" [("name", "one")]
    [el "ns" [("name", "a")]
       [el "ns" [("name", "b")]
          [el "fields" [] [el "ref" [("name", "f2"); ("field", "a.b.f1")] []]];
        el "messages" [] [el "message" [("name", "M1"); ("id", "MsgId.M1")] []];
        el "interface" [("name", "I")] [el "ref" [("name", "v"); ("field", "a.b.f2")] []];
        el "frame" [("name", "F")] [el "size" [("name", "s"); ("field", "Len")] []; el "id" [("name", "i"); ("field", "MsgId")] []; el "payload" [("name", "p")] []]]].
Definition ex_doc3 : node :=
  el "schema" [("name", "two")]
    [el "fields" [] [el "ref" [("name", "g"); ("field", "@one.a.b.f2")] []]].
Definition ex_docs : list node := [ex_doc1; ex_doc2; ex_doc3].
Definition ex_result : res protocol := validate true no_stod ex_docs.
Definition ex_proto : protocol := match ex_result with Ok s => s | _ => new_protocol true no_stod end.
Definition ex_schema (i : nat) : schema := nth i (pr_schemas ex_proto) no_schema.
Definition ex_ns (i : nat) (path : list string) : nspace :=
  match path with
  | [] => empty_ns [] [] []
  | _ => match ns_at (map T path) (sc_ns (ex_schema i)) with Some n => n | None => empty_ns [] [] [] end
  end.
Lemma ex_accepted : validate true no_stod ex_docs = Ok ex_proto.
Proof. vm_compute. reflexivity. Qed.
