(** Model of lib/src/parse/ParseNamespaceImpl.cpp, ParseSchemaImpl.cpp and ParseProtocolImpl.cpp: the
    schemas, their namespaces and the lookup of global elements. *)
From Verif.Model Require Import Base Common Xml Units Field FieldCommon IntField EnumField SetField FloatField OptCond Composite Message Frame.

(** ** std::map *)
(** std::map as the list of its elements in the order of the keys *)
Section Maps.
  Context {A : Type} (lt : str -> str -> bool).
  (** std::map::find *)
  Fixpoint map_find (k : str) (l : list (str * A)) : option A :=
    match l with
    | [] => None
    | (k', v) :: l' => if negb (lt k k') && negb (lt k' k) then Some v else map_find k l'
    end.
  (** std::map::emplace of an absent key; for a present key: its value changes *)
  Fixpoint map_put (k : str) (v : A) (l : list (str * A)) : list (str * A) :=
    match l with
    | [] => [(k, v)]
    | (k', v') :: l' => if lt k k' then (k, v) :: l
                        else if lt k' k then (k', v') :: map_put k v l'
                        else (k', v) :: l'
    end.
End Maps.
(** ParseNamespaceImpl.h 43-64 ParseKeyComp: the case of the first character is ignored. Keys are names, hence
    characters below 128. *)
Definition key_norm (s : str) : str := match s with [] => [] | c :: s' => tolower c :: s' end.
Definition key_ltb (a b : str) : bool := str_ltb (key_norm a) (key_norm b).

(** ** Namespaces *)
(** ParseNamespaceImpl.h m_*; maps of fields, messages, interfaces, frames are ordered by [key_ltb] *)
Inductive nspace := mkNs
  (name displayName description : str) (subs : list (str * nspace)) (fields : list (str * field))
  (messages : list (str * message)) (ifaces : list (str * iface)) (frames : list (str * frame)).
Definition ns_name (n : nspace) : str := let 'mkNs x _ _ _ _ _ _ _ := n in x.
Definition ns_displayName (n : nspace) : str := let 'mkNs _ x _ _ _ _ _ _ := n in x.
Definition ns_description (n : nspace) : str := let 'mkNs _ _ x _ _ _ _ _ := n in x.
Definition ns_subs (n : nspace) : list (str * nspace) := let 'mkNs _ _ _ x _ _ _ _ := n in x.
Definition ns_fields (n : nspace) : list (str * field) := let 'mkNs _ _ _ _ x _ _ _ := n in x.
Definition ns_messages (n : nspace) : list (str * message) := let 'mkNs _ _ _ _ _ x _ _ := n in x.
Definition ns_ifaces (n : nspace) : list (str * iface) := let 'mkNs _ _ _ _ _ _ x _ := n in x.
Definition ns_frames (n : nspace) : list (str * frame) := let 'mkNs _ _ _ _ _ _ _ x := n in x.
Definition set_description (d : str) (n : nspace) : nspace :=
  let 'mkNs a b _ s f m i r := n in mkNs a b d s f m i r.
Definition put_sub (k : str) (v : nspace) (n : nspace) : nspace :=
  let 'mkNs a b c s f m i r := n in mkNs a b c (map_put str_ltb k v s) f m i r.
Definition put_field (v : field) (n : nspace) : nspace :=
  let 'mkNs a b c s f m i r := n in mkNs a b c s (map_put key_ltb (f_name v) v f) m i r.
Definition put_message (v : message) (n : nspace) : nspace :=
  let 'mkNs a b c s f m i r := n in mkNs a b c s f (map_put key_ltb (m_name v) v m) i r.
Definition put_iface (v : iface) (n : nspace) : nspace :=
  let 'mkNs a b c s f m i r := n in mkNs a b c s f m (map_put key_ltb (if_name v) v i) r.
Definition put_frame (v : frame) (n : nspace) : nspace :=
  let 'mkNs a b c s f m i r := n in mkNs a b c s f m i (map_put key_ltb (fr_name v) v r).
Definition empty_ns (name dname descr : str) : nspace := mkNs name dname descr [] [] [] [] [].

(** Namespace.cpp 246-294 parseFindField & co *)
Definition ns_find_field (n : nspace) (k : str) : option field := map_find key_ltb k (ns_fields n).
Definition ns_find_message (n : nspace) (k : str) : option message := map_find key_ltb k (ns_messages n).
Definition ns_find_iface (n : nspace) (k : str) : option iface := map_find key_ltb k (ns_ifaces n).
Definition ns_find_frame (n : nspace) (k : str) : option frame := map_find key_ltb k (ns_frames n).

(** Namespace.cpp 166-244: the public lists, sorted by name *)
Definition by_name {A} (name : A -> str) (l : list (str * A)) : list A :=
  isort (fun a b => str_ltb (name a) (name b)) (map snd l).
Definition ns_messages_list (n : nspace) : list message := by_name m_name (ns_messages n).
Definition ns_fields_list (n : nspace) : list field := by_name f_name (ns_fields n).
Definition ns_ifaces_list (n : nspace) : list iface := by_name if_name (ns_ifaces n).
Definition ns_frames_list (n : nspace) : list frame := by_name fr_name (ns_frames n).

(** Namespace.cpp 416-431 parseAllImplInterfaces *)
Fixpoint ns_all_ifaces (n : nspace) : list iface :=
  match n with
  | mkNs _ _ _ subs _ _ ifs _ =>
      (fix go (l : list (str * nspace)) : list iface :=
         match l with [] => [] | (_, s) :: l' => ns_all_ifaces s ++ go l' end) subs ++ map snd ifs
  end.
(** Namespace.cpp 729-758 parseStrToValue: the field a value reference leads to, given [leaf] *)
Fixpoint ns_value {A} (leaf : field -> str -> option A) (n : nspace) (ref : str) : option A :=
  match n with
  | mkNs _ _ _ subs fs _ _ _ =>
      let (first, rest) := first_seg ref in
      match rest with
      | None => match map_find key_ltb ref fs with Some f => leaf f [] | None => None end
      | Some r =>
          (fix go (l : list (str * nspace)) : option A :=
             match l with
             | [] => match map_find key_ltb first fs with Some f => leaf f r | None => None end
             | (k, s) :: l' => if str_eqb k first then ns_value leaf s r else go l'
             end) subs
      end
  end.
(** Namespace.cpp 324-345 parseCountMessageIds (unsigned arithmetic) *)
Fixpoint ns_count_ids (n : nspace) : Z :=
  match n with
  | mkNs _ _ _ subs fs _ _ _ =>
      to_u32 ((fix go (l : list (str * nspace)) : Z :=
                 match l with [] => 0 | (_, s) :: l' => to_u32 (ns_count_ids s + go l') end) subs +
              Z.of_nat (length (filter (fun f => match c_sem (f_common (snd f)) with SemMessageId => true | _ => false end) fs)))
  end.

(** Namespace.cpp 452-507 parseValidateAllMessages *)
Definition msg_ltb (a b : message) : bool :=
  if m_id a =? m_id b then m_order a <? m_order b else m_id a <? m_id b.
Fixpoint ids_ok (allowed : bool) (l : list message) : bool :=
  match l with
  | a :: ((b :: _) as l') =>
      (negb (m_id a =? m_id b) || (allowed && negb (m_order a =? m_order b))) && ids_ok allowed l'
  | _ => true
  end.
Definition ns_validated_messages (n : nspace) : list message :=
  isort msg_ltb (ns_messages_list n ++ flat_map (fun s => ns_messages_list (snd s)) (ns_subs n)).
Definition ns_validate_messages (allowed : bool) (n : nspace) : bool := ids_ok allowed (ns_validated_messages n).

(** ** Schemas *)
(** ParseSchemaImpl.h m_*; [sc_ns] is ordered by std::string::operator< *)
Record schema := mkSchema {
  sc_name : str; sc_displayName : str; sc_description : str; sc_id : Z; sc_version : Z; sc_dsl : Z;
  sc_endian : endian; sc_nonUnique : bool; sc_props : props;
  sc_ns : list (str * nspace); sc_platforms : list str }.
Definition set_sc_ns (l : list (str * nspace)) (s : schema) : schema :=
  mkSchema (sc_name s) (sc_displayName s) (sc_description s) (sc_id s) (sc_version s) (sc_dsl s) (sc_endian s)
           (sc_nonUnique s) (sc_props s) l (sc_platforms s).
Definition set_platforms (l : list str) (s : schema) : schema :=
  mkSchema (sc_name s) (sc_displayName s) (sc_description s) (sc_id s) (sc_version s) (sc_dsl s) (sc_endian s)
           (sc_nonUnique s) (sc_props s) (sc_ns s) l.

(** Schema.cpp 37-47 *)
Definition schema_props : list str :=
  [L "name"; L "displayName"; L "id"; L "version"; L "dslVersion"; L "endian"; L "description"; L "nonUniqueMsgIdAllowed"].
(** Schema.cpp 287-308 *)
Definition unsigned_prop (p : props) (k : str) : res Z :=
  match find_prop p k with None => Ok 0 | Some v => of_opt (parseStrToUnsigned v) end.
(** Schema.cpp 66-94 parseProcessNode *)
Definition schema_parse (n : node) : res schema :=
  p <- parseChildrenAsProps n schema_props true (parseNodeProps n) ;;
  let name := get_prop p (L "name") in
  let descr := get_prop p (L "description") in
  id <- unsigned_prop p (L "id") ;;
  version <- unsigned_prop p (L "version") ;;
  dsl <- unsigned_prop p (L "dslVersion") ;;
  endian <- of_opt (parseEndian (get_prop p (L "endian")) Little) ;;
  nonu <- match find_prop p (L "nonUniqueMsgIdAllowed") with None => Ok false | Some v => of_opt (parseStrToBool v) end ;;
  let dname := get_prop p (L "displayName") in
  let dname := if (0 <? dsl) && (dsl <? 7) then [] else dname in
  _ <- guard (is_nil name || parseIsValidName name) ;;
  Ok (mkSchema name dname descr id version dsl endian nonu p [] []).

(** Schema.cpp 192-201 parseAddPlatform *)
Fixpoint add_platform (x : str) (l : list str) : list str :=
  match l with
  | [] => [x]
  | y :: l' => if str_ltb y x then y :: add_platform x l' else if str_eqb y x then l else x :: l
  end.
(** Schema.cpp 132-160 parseAllMessages. Messages of equal id and order: the order of std::sort is unspecified,
    the one of [isort] is taken. *)
Definition all_messages (s : schema) : list message :=
  isort msg_ltb (flat_map (fun n => ns_messages_list (snd n)) (sc_ns s)).
(** Schema.cpp 162-179 parseAllInterfaces *)
Definition all_interfaces (s : schema) : list iface := flat_map (fun n => ns_ifaces_list (snd n)) (sc_ns s).
(** Schema.cpp 223-233 *)
Definition schema_validate_messages (s : schema) : bool :=
  forallb (fun n => ns_validate_messages (sc_nonUnique s) (snd n)) (sc_ns s).

(** Schema.cpp 395-460 parseGetNsFromPath: the text split at the last '.' *)
Fixpoint split_last (s : str) : option (str * str) :=
  match s with
  | [] => None
  | c :: s' => match split_last s' with
               | Some (a, b) => Some (c :: a, b)
               | None => if ch_eqb c "." then Some ([], s') else None
               end
  end.
Fixpoint ns_at (path : list str) (l : list (str * nspace)) : option nspace :=
  match path with
  | [] => None
  | [x] => if is_nil x then None else map_find str_ltb x l
  | x :: path' => if is_nil x then None
                  else match map_find str_ltb x l with Some n => ns_at path' (ns_subs n) | None => None end
  end.
Definition ns_from_path (s : schema) (ref : str) (checkRef : bool) : option (nspace * str) :=
  if checkRef && negb (parseIsValidRefName ref) then None
  else match split_last ref with
       | None => match map_find str_ltb [] (sc_ns s) with Some n => Some (n, ref) | None => None end
       | Some (path, rem) => match ns_at (splits "." path) (sc_ns s) with Some n => Some (n, rem) | None => None end
       end.

(** ** The protocol *)
(** ParseProtocolImpl.h: schemas in the order of definition, index of the current one, whether multiple schemas
    were enabled, std::stod *)
Record protocol := mkProtocol {
  pr_schemas : list schema; pr_cur : nat; pr_multi : bool; pr_stod : str -> option spec_float }.
Definition no_schema : schema := mkSchema [] [] [] 0 0 0 Little false [] [] [].
Definition cur_schema (s : protocol) : schema := nth (pr_cur s) (pr_schemas s) no_schema.
Fixpoint set_nth {A} (i : nat) (x : A) (l : list A) : list A :=
  match l, i with
  | [], _ => []
  | _ :: l', O => x :: l'
  | y :: l', S i' => y :: set_nth i' x l'
  end.
Definition set_cur (sc : schema) (s : protocol) : protocol :=
  mkProtocol (set_nth (pr_cur s) sc (pr_schemas s)) (pr_cur s) (pr_multi s) (pr_stod s).

(** Protocol.cpp 871-896 parseExternalRef: index of the schema and the rest of the reference *)
Definition external_ref (s : protocol) (ref : str) : option (nat * str) :=
  match ref with
  | [] => None
  | c :: r =>
      if negb (ch_eqb c c_schema) then Some (pr_cur s, ref)
      else match first_seg r with
           | (_, None) => None
           | (name, Some rest) =>
               match find_idx (fun x => str_eqb name (sc_name x)) (pr_schemas s) with
               | Some i => if is_nil rest then None else Some (i, rest)
               | None => None
               end
           end
  end.
(** Protocol.cpp 126-169 parseFindField & co; 898-925 parseCanRefSchema *)
Definition find_global {A} (find : nspace -> str -> option A) (s : protocol) (ref : str) (checkRef : bool) : option A :=
  match external_ref s ref with
  | None => None
  | Some (i, rest) =>
      if Nat.leb i (pr_cur s) then
        match ns_from_path (nth i (pr_schemas s) no_schema) rest checkRef with
        | Some (n, name) => find n name
        | None => None
        end
      else None
  end.
Definition find_field := find_global ns_find_field.
Definition find_message := find_global ns_find_message.
Definition find_iface := find_global ns_find_iface.
(** Protocol.cpp 171-210 parseStrToEnumValue without the check of the reference *)
Definition find_enum (s : protocol) (ref : str) : option Z :=
  match split_last ref with
  | None => None
  | Some (path, elem) =>
      match find_field s path false with
      | Some (FEnum _ st) => match assoc elem (en_values st) with Some v => Some (v_value v) | None => None end
      | _ => None
      end
  end.
(** Protocol.cpp 819-869 parseStrToValue, checkRef = true *)
Definition find_value {A} (leaf : field -> str -> option A) (s : protocol) (ref : str) : option A :=
  if negb (parseIsValidRefName ref) then None
  else match external_ref s ref with
  | None => None
  | Some (i, rest) =>
      let nss := sc_ns (nth i (pr_schemas s) no_schema) in
      let global := match map_find str_ltb [] nss with Some n => ns_value leaf n rest | None => None end in
      match first_seg rest with
      | (_, None) => global
      | (first, Some r) => match map_find str_ltb first nss with Some n => ns_value leaf n r | None => global end
      end
  end.
(** Schema.cpp 261-275, Namespace.cpp 433-445: Interface.cpp processInnerFieldRef is [sibling_ref] *)
Definition iface_refs (s : schema) (ref : str) : res (list ref_info) :=
  foldM (fun acc i => o <- sibling_ref (if_fields i) ref ;;
                      Ok (match o with Some r => acc ++ [r] | None => acc end))
        (flat_map (fun n => ns_all_ifaces (snd n)) (sc_ns s)) [].

Definition env_of (s : protocol) : env :=
  let sc := cur_schema s in
  let frs := (sc_dsl sc =? 0) || (2 <=? sc_dsl sc) in
  mkEnv (sc_version sc) (sc_dsl sc) (sc_endian sc)
    (fun r => find_field s r true)
    (find_value (field_num frs) s)
    (find_enum s)
    (find_value (field_bool frs) s)
    (find_value (field_string frs) s)
    (find_value (field_data frs) s)
    (find_value (field_fp frs) s)
    (pr_stod s)
    (iface_refs sc).
Definition menv_of (s : protocol) : menv :=
  let sc := cur_schema s in
  mkMenv (env_of s) (fun r => find_message s r true) (fun r => find_iface s r true) (sc_platforms sc)
    (flat_map (fun n => map snd (ns_ifaces (snd n))) (sc_ns sc)).

(** ** Definition of global elements *)
(** Namespace.cpp 43-53 *)
Definition ns_children : list str :=
  [L "fields"; L "messages"; L "message"; L "frames"; L "frame"; L "ns"; L "interfaces"; L "interface"].
(** Namespace.cpp 560-592 the loop body of processMultipleFields *)
Definition define_field (mk : nspace -> menv) (ns : nspace) (n : node) : res nspace :=
  f <- parse_field (me_env (mk ns)) (mkCtx PNamespace 0 not_deprecated) n ;;
  _ <- guard (negb (is_nil (f_name f))) ;;
  match ns_find_field ns (f_name f) with Some _ => Err | None => Ok (put_field f ns) end.
(** Namespace.cpp 594-612 processMessage *)
Definition define_message (mk : nspace -> menv) (ns : nspace) (n : node) : res nspace :=
  m <- message_parse (mk ns) n ;;
  match ns_find_message ns (m_name m) with Some _ => Err | None => Ok (put_message m ns) end.
(** Namespace.cpp 635-653 processInterface *)
Definition define_iface (mk : nspace -> menv) (ns : nspace) (n : node) : res nspace :=
  i <- iface_parse (mk ns) n ;;
  match ns_find_iface ns (if_name i) with Some _ => Err | None => Ok (put_iface i ns) end.
(** Namespace.cpp 676-694 processFrame *)
Definition define_frame (mk : nspace -> menv) (ns : nspace) (n : node) : res nspace :=
  f <- frame_parse (mk ns) n ;;
  match ns_find_frame ns (fr_name f) with Some _ => Err | None => Ok (put_frame f ns) end.
(** Namespace.cpp 614-633, 655-674, 696-715: every child of [n] is an element of that name *)
Definition define_all (name : str) (def : nspace -> node -> res nspace) (ns : nspace) (n : node) : res nspace :=
  foldM (fun ns c => _ <- guard (str_eqb (n_name c) name) ;; def ns c) (parseGetChildren n) ns.

(** Namespace.cpp 90-118 parseProps, 730-746: (name, displayName, description) *)
Definition ns_props (e : env) (n : node) : res (str * str * str) :=
  p <- parseChildrenAsProps n [L "name"; L "displayName"; L "description"] true (parseNodeProps n) ;;
  let dname := if ns_display_supported e then get_prop p (L "displayName") else [] in
  _ <- guard (parseIsValidName (get_prop p (L "name"))) ;;
  Ok (get_prop p (L "name"), dname, get_prop p (L "description")).
(** Namespace.cpp 512-556, Protocol.cpp 744-795: the namespace an <ns> element adds to *)
Definition ns_start (found : option nspace) (name dname descr : str) : nspace :=
  match found with
  | None => empty_ns name dname descr
  | Some s => if is_nil (ns_description s) then set_description descr s else s
  end.
(** Namespace.cpp 133-159 processChild, 505-558 processNamespace. [mk ns]: the protocol when the namespace the
    child belongs to is [ns]. *)
Fixpoint ns_child (mk : nspace -> menv) (ns : nspace) (n : node) {struct n} : res nspace :=
  let nm := n_name n in
  if str_eqb nm (L "ns") then
    '(name, dname, descr) <- ns_props (me_env (mk ns)) n ;;
    let sub := ns_start (map_find str_ltb name (ns_subs ns)) name dname descr in
    let mk' := fun s => mk (put_sub name s ns) in
    sub <- match n with
           | Elem _ _ cs =>
               (fix go (l : list node) (sub : nspace) : res nspace :=
                  match l with
                  | [] => Ok sub
                  | c :: l' => if is_elem c && mem_str (n_name c) ns_children
                               then sub <- ns_child mk' sub c ;; go l' sub else go l' sub
                  end) cs sub
           | _ => Ok sub
           end ;;
    Ok (put_sub name sub ns)
  else if str_eqb nm (L "fields") then foldM (define_field mk) (parseGetChildren n) ns
  else if str_eqb nm (L "message") then define_message mk ns n
  else if str_eqb nm (L "messages") then define_all (L "message") (define_message mk) ns n
  else if str_eqb nm (L "frame") then define_frame mk ns n
  else if str_eqb nm (L "frames") then define_all (L "frame") (define_frame mk) ns n
  else if str_eqb nm (L "interface") then define_iface mk ns n
  else if str_eqb nm (L "interfaces") then define_all (L "interface") (define_iface mk) ns n
  else Err.
(** Namespace.cpp 120-129 parseChildren *)
Definition ns_children_of (mk : nspace -> menv) (ns : nspace) (n : node) : res nspace :=
  foldM (ns_child mk) (parseGetChildrenOf n ns_children false) ns.

Definition put_ns (k : str) (v : nspace) (s : protocol) : protocol :=
  set_cur (set_sc_ns (map_put str_ltb k v (sc_ns (cur_schema s))) (cur_schema s)) s.
(** Protocol.cpp 741-803: a child of <schema> *)
Definition schema_child (s : protocol) (n : node) : res protocol :=
  if str_eqb (n_name n) (L "ns") then
    '(name, dname, descr) <- ns_props (env_of s) n ;;
    ns <- ns_children_of (fun x => menv_of (put_ns name x s))
            (ns_start (map_find str_ltb name (sc_ns (cur_schema s))) name dname descr) n ;;
    Ok (put_ns name ns s)
  else
    let g := match map_find str_ltb [] (sc_ns (cur_schema s)) with Some g => g | None => empty_ns [] [] [] end in
    g <- ns_child (fun x => menv_of (put_ns [] x s)) g n ;;
    Ok (put_ns [] g s).

(** Protocol.cpp 576-662 parseValidateSchema *)
Definition validate_schema (s : protocol) (n : node) : res protocol :=
  sc <- schema_parse n ;;
  let name := if is_nil (sc_name sc) then sc_name (cur_schema s) else sc_name sc in
  _ <- guard (negb (is_nil name)) ;;
  match find_idx (fun x => str_eqb name (sc_name x)) (pr_schemas s) with
  | None =>
      _ <- guard (is_nil (pr_schemas s) || (multi_schema_supported (env_of s) && pr_multi s)) ;;
      Ok (mkProtocol (pr_schemas s ++ [sc]) (length (pr_schemas s)) (pr_multi s) (pr_stod s))
  | Some i =>
      let orig := sc_props (nth i (pr_schemas s) no_schema) in
      _ <- guard (forallb (fun p => match find_prop orig (fst p) with
                                    | Some v => str_eqb v (snd p)
                                    | None => false
                                    end) (sc_props sc)) ;;
      Ok (mkProtocol (pr_schemas s) i (pr_multi s) (pr_stod s))
  end.
(** Protocol.cpp 691-727 parseValidateSinglePlatform *)
Definition validate_platform (l : list str) (n : node) : res (list str) :=
  p <- parseChildrenAsProps n [L "name"] true (parseNodeProps n) ;;
  name <- of_opt (find_prop p (L "name")) ;;
  _ <- guard (negb (existsb (fun c => ch_eqb c "+" || ch_eqb c "-" || ch_eqb c ",") name)) ;;
  Ok (add_platform name l).
(** Protocol.cpp 664-689 parseValidatePlatforms *)
Definition validate_platforms (s : protocol) (n : node) : res protocol :=
  let nested := flat_map parseGetChildren (parseGetChildrenNamed n (L "platforms")) in
  l <- foldM (fun l c => _ <- guard (str_eqb (n_name c) (L "platform")) ;; validate_platform l c) nested
         (sc_platforms (cur_schema s)) ;;
  l <- foldM validate_platform (parseGetChildrenNamed n (L "platform")) l ;;
  Ok (set_cur (set_platforms l (cur_schema s)) s).
(** Protocol.cpp 553-575 parseValidateDoc, 729-806 parseValidateNamespaces *)
Definition validate_doc (s : protocol) (root : node) : res protocol :=
  _ <- guard (str_eqb (n_name root) (L "schema")) ;;
  s <- validate_schema s root ;;
  s <- validate_platforms s root ;;
  foldM schema_child (parseGetChildrenOf root ns_children false) s.

(** Protocol.cpp 33-58: a new protocol object *)
Definition new_protocol (multi : bool) (stod : str -> option spec_float) : protocol := mkProtocol [] 0 multi stod.
(** Protocol.cpp 60-103: parse() of every document (the roots; reading of the files is libxml2), then
    parseValidate() *)
Definition validate (multi : bool) (stod : str -> option spec_float) (docs : list node) : res protocol :=
  _ <- guard (negb (is_nil docs)) ;;
  s <- foldM validate_doc docs (new_protocol multi stod) ;;
  _ <- guard (forallb schema_validate_messages (pr_schemas s)) ;;
  Ok s.

(** Namespace.cpp 296-322, Schema.cpp 256-259, Field.cpp 255-274, Message.cpp 205-219, Interface.cpp 115-129,
    Frame.cpp 104-118: parseExternalRef of the element [name] of the namespace with that path (outermost first,
    "" is the global namespace of the schema); [sch]: name of the schema for a reference from any schema *)
Definition ns_ext_ref (sch : option str) (path : list str) : str :=
  match path with
  | [] => []
  | top :: subs =>
      let first := match sch with
                   | None => top
                   | Some s => (c_schema :: s) ++ (if is_nil top then [] else "."%char :: top)
                   end in
      fold_left (fun acc x => acc ++ "."%char :: x) subs first
  end.
Definition ext_ref (sch : option str) (path : list str) (name : str) : str :=
  let r := ns_ext_ref sch path in
  if is_nil r then name else r ++ "."%char :: name.
