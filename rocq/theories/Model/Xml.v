(** Model of lib/src/parse/ParseXmlWrap.cpp over an XML tree.
    libxml2 itself (well-formedness, entities, line numbers) is trusted: an
    element is its name, its attributes in document order and its children. *)
From Verif.Model Require Import Base Common.

Inductive node : Type :=
| Elem (name : str) (attrs : list (str * str)) (children : list node)
| TextNode (t : str)
| OtherNode.  (* comments, processing instructions, CDATA: skipped by every function here *)

Definition n_name (n : node) : str := match n with Elem x _ _ => x | _ => [] end.
Definition n_attrs (n : node) : list (str * str) := match n with Elem _ a _ => a | _ => [] end.
Definition n_children (n : node) : list node := match n with Elem _ _ c => c | _ => [] end.
Definition is_elem (n : node) : bool := match n with Elem _ _ _ => true | _ => false end.

(** std::multimap<std::string, std::string>: values of equal keys keep
    insertion order, so an association list in insertion order with
    [find] = first match is equivalent for find / count. *)
Definition props := list (str * str).
Fixpoint find_prop (p : props) (k : str) : option str :=
  match p with
  | [] => None
  | (k', v) :: p' => if str_eqb k' k then Some v else find_prop p' k
  end.
Fixpoint count_prop (p : props) (k : str) : nat :=
  match p with
  | [] => O
  | (k', _) :: p' => if str_eqb k' k then S (count_prop p' k) else count_prop p' k
  end.

(** ParseXmlWrap.cpp 36-52 parseNodeProps *)
Definition parseNodeProps (n : node) : props := map (fun a => (fst a, trim (snd a))) (n_attrs n).

(** ParseXmlWrap.cpp 63-99 parseGetChildren (names given, skipValueAttr) *)
Definition parseGetChildrenOf (n : node) (names : list str) (skipValueAttr : bool) : list node :=
  filter (fun c =>
    is_elem c &&
    (is_nil names ||
     (negb (skipValueAttr && match find_prop (parseNodeProps c) (L "value") with Some _ => true | None => false end)
      && mem_str (n_name c) names))) (n_children n).
(** ParseXmlWrap.cpp 54-61: all element children *)
Definition parseGetChildren (n : node) : list node := parseGetChildrenOf n [] false.
(** ParseXmlWrap.cpp 54-61: element children of one name *)
Definition parseGetChildrenNamed (n : node) (name : str) : list node := parseGetChildrenOf n [name] false.

(** ParseXmlWrap.cpp 101-122 parseGetText *)
Fixpoint first_text (l : list node) : str :=
  match l with
  | [] => []
  | TextNode t :: _ => t
  | _ :: l' => first_text l'
  end.
Definition parseGetText (n : node) : str :=
  if existsb is_elem (n_children n) then [] else first_text (n_children n).

(** ParseXmlWrap.cpp 124-166 parseNodeValue; the written value, [] when none *)
Definition parseNodeValue (n : node) (mustHaveValue : bool) : res str :=
  let v := match find_prop (parseNodeProps n) (L "value") with Some v => trim v | None => [] end in
  let t := trim (parseGetText n) in
  if is_nil v && is_nil t then (if mustHaveValue then Err else Ok [])
  else if negb (is_nil v) && negb (is_nil t) then Err
  else if negb (is_nil v) then Ok v
  else Ok (normalise t).

(** ParseXmlWrap.cpp 168-200 parseChildrenAsProps: props appended to [acc] *)
Fixpoint childrenAsProps (children : list node) (names : list str) (mustHaveValue : bool) (acc : props) : res props :=
  match children with
  | [] => Ok acc
  | c :: cs =>
      if mem_str (n_name c) names then
        match parseNodeValue c mustHaveValue with
        | Ok [] => childrenAsProps cs names mustHaveValue acc
        | Ok v => childrenAsProps cs names mustHaveValue (acc ++ [(n_name c, v)])
        | Err => if mustHaveValue then Err else childrenAsProps cs names mustHaveValue acc
        | UB => UB
        end
      else childrenAsProps cs names mustHaveValue acc
  end.
Definition parseChildrenAsProps (n : node) (names : list str) (mustHaveValue : bool) (acc : props) : res props :=
  if is_nil names then Ok acc
  else childrenAsProps (parseGetChildren n) names mustHaveValue acc.

(** ParseXmlWrap.cpp 265-286 parseValidateSinglePropInstance *)
Definition parseValidateSinglePropInstance (p : props) (k : str) (mustHave : bool) : res unit :=
  let c := count_prop p k in
  if Nat.ltb 1 c then Err
  else if Nat.eqb c 0 && mustHave then Err else Ok tt.

(** ParseXmlWrap.cpp 288-298 parseValidateNoPropInstance *)
Definition parseValidateNoPropInstance (p : props) (k : str) : res unit :=
  match find_prop p k with Some _ => Err | None => Ok tt end.

(** ParseXmlWrap.cpp 300-312 parseHasAnyChild *)
Definition parseHasAnyChild (n : node) (names : list str) : bool :=
  existsb (fun c => mem_str (n_name c) names) (parseGetChildren n).

(** ParseXmlWrap.cpp 202-214 parseGetUnknownProps *)
Definition parseGetUnknownProps (n : node) (names : list str) : props :=
  filter (fun a => negb (mem_str (fst a) names)) (parseNodeProps n).
(** ParseXmlWrap.cpp 216-228 parseGetUnknownChildren *)
Definition parseGetUnknownChildren (n : node) (names : list str) : list node :=
  filter (fun c => negb (mem_str (n_name c) names)) (parseGetChildren n).

(** Versions. ParseProtocol.h 55-58 parseNotYetDeprecated *)
Definition not_deprecated : Z := two32 - 1.

(** ParseXmlWrap.cpp 326-379 parseCheckVersions *)
Definition parseCheckVersions (schemaVer since depr parentSince parentDepr : Z) : res unit :=
  if schemaVer <? since then Err
  else if since <? parentSince then Err
  else if parentDepr <=? since then Err
  else if parentDepr <? depr then Err
  else if depr <=? since then Err
  else if (depr <? not_deprecated) && (schemaVer <? depr) then Err
  else Ok tt.

(** ParseXmlWrap.cpp 381-429 parseGetAndCheckVersions: (parent since, parent
    deprecated) -> (since, deprecated) *)
Definition parseGetAndCheckVersions (schemaVer : Z) (p : props) (parent : Z * Z) : res (Z * Z) :=
  let '(ps, pd) := parent in
  since <- match find_prop p (L "sinceVersion") with
           | None => Ok ps
           | Some s => of_opt (parseStrToUnsigned s)
           end ;;
  depr <- match find_prop p (L "deprecated") with
          | None => Ok pd
          | Some s => of_opt (parseStrToUnsigned s)
          end ;;
  _ <- parseCheckVersions schemaVer since depr ps pd ;;
  Ok (since, depr).
(** ParseXmlWrap.cpp 431-449: reading the two properties from the element first *)
Definition parseGetAndCheckVersionsNode (schemaVer : Z) (n : node) (parent : Z * Z) : res (Z * Z) :=
  p <- parseChildrenAsProps n [L "sinceVersion"; L "deprecated"] true (parseNodeProps n) ;;
  parseGetAndCheckVersions schemaVer p parent.
