(** Specification of where a set of schema files defines which elements (C28). *)
From Coq Require Import Sorting.Permutation.
From Verif.Model Require Import Base Common Xml Units Field FieldCommon IntField EnumField SetField FloatField OptCond Composite Message Frame Protocol.
From Verif.Spec Require Import Texts IntSpec XmlSpec FieldSpec ProtocolSpec.

(** the elements a child [c] of <schema> or <ns> defines: itself if it is called [one], its child elements
    if it is called [many] *)
Definition items (one : option txt) (many : txt) (c : node) : list node :=
  match c with
  | Elem name _ cs => if match one with Some o => str_eqb name o | None => false end then [c] else if str_eqb name many then filter is_elem cs else []
  | _ => []
  end.
(** [declares one many path c l]: [l] are the elements that [c], a child of <schema> or <ns>, defines in the
    namespace [path] relative to it *)
Inductive declares (one : option txt) (many : txt) : list txt -> node -> list node -> Prop :=
| dc_here c : declares one many [] c (items one many c)
| dc_ns k p attrs cs vs ls : supplied (Elem (T "ns") attrs cs) (T "name") (k :: vs) ->
    Forall2 (declares one many p) cs ls -> declares one many (k :: p) (Elem (T "ns") attrs cs) (concat ls)
| dc_none k p c : (n_name c = T "ns" -> forall vs, ~ supplied c (T "name") (k :: vs)) -> declares one many (k :: p) c [].

(** the schema each file belongs to: the one it names, else the one of the file before *)
Inductive doc_schemas : txt -> list node -> list (txt * node) -> Prop :=
| ds_nil cur : doc_schemas cur [] []
| ds_named cur d v vs ds r : supplied d (T "name") (v :: vs) -> v <> [] -> doc_schemas v ds r ->
    doc_schemas cur (d :: ds) ((v, d) :: r)
| ds_unnamed cur d vs ds r : supplied d (T "name") vs -> hd [] vs = [] -> cur <> [] -> doc_schemas cur ds r ->
    doc_schemas cur (d :: ds) ((cur, d) :: r).
Definition declared_in (one : option txt) (many : txt) (path : list txt) (d : node) (l : list node) : Prop :=
  exists ls, Forall2 (declares one many path) (n_children d) ls /\ l = concat ls.
(** the elements all files of the schema [name] define in the namespace [path] ([] is the global one) *)
Definition declared_by (one : option txt) (many : txt) (files : list (txt * node)) (name : txt) (path : list txt) (l : list node) : Prop :=
  exists ls, Forall2 (declared_in one many path) (map snd (filter (fun x => str_eqb (fst x) name) files)) ls /\ l = concat ls.

(** what the schema reports in the namespace [path]; nothing if there is no such namespace *)
Definition listed {A} (get : nspace -> list A) (sc : schema) (path : list txt) (l : list A) : Prop :=
  let p := match path with [] => [[]] | _ => path end in
  (exists n, namespace_at (sc_ns sc) p n /\ l = get n) \/ ((forall n, ~ namespace_at (sc_ns sc) p n) /\ l = []).
(** elements called X that are accepted in the protocol as it was then *)
Definition field_of (n : node) (f : field) : Prop :=
  exists e, env_ok e /\ parse_field e (mkCtx PNamespace 0 not_deprecated) n = Ok f.
Definition message_of (n : node) (m : message) : Prop := exists me, menv_ok me /\ message_parse me n = Ok m.
Definition iface_of (n : node) (i : iface) : Prop := exists me, menv_ok me /\ iface_parse me n = Ok i.
Definition frame_of (n : node) (f : frame) : Prop := exists me, menv_ok me /\ frame_parse me n = Ok f.
(** every element called [one] (or inside [many]) that the files define is reported, once, in the namespace it was
    written in, and nothing else is reported *)
Definition all_defined {A} (one : option txt) (many : txt) (parsed : node -> A -> Prop) (get : nspace -> list A) (docs : list node) (s : protocol) : Prop :=
  exists files, doc_schemas [] docs files /\ (forall name, In name (map fst files) <-> exists sc, In sc (pr_schemas s) /\ sc_name sc = name) /\
    forall sc path, In sc (pr_schemas s) -> ~ In [] path -> exists nodes ms l, declared_by one many files (sc_name sc) path nodes /\
      Forall2 parsed nodes ms /\ listed get sc path l /\ Permutation l ms.
(** pairwise different, even with the case of the first letter ignored *)
Definition distinct_names (l : list txt) : Prop := ForallOrdPairs (fun a b => ~ same_first_case_ignored a b) l.
