(** Model of how the generator finds global elements by their external references and
    of which messages and interfaces it generates code for: lib/src/gen/GenGenerator.cpp,
    GenSchema.cpp, GenNamespace.cpp, GenMessage.cpp, GenInterface.cpp. *)
From Verif.Model Require Import Base Common Units Field IntField Message Frame Protocol GenUtil GenComms CommsFactory.

(** ** Looking up *)
(** std::lower_bound as in libstdc++ (bits/stl_algobase.h __lower_bound): [before x] is
    what the comparison says of the element [x] and the value; the result is an index
    counted from [first].  [fuel] is the length of the range, which at least halves. *)
Fixpoint lower_bound_loop {A} (fuel : nat) (before : A -> bool) (l : list A) (first len : nat) : nat :=
  match fuel with
  | O => first
  | S fuel' =>
      match len with
      | O => first
      | _ =>
          let half := Nat.div2 len in
          match nth_error l (first + half) with
          | Some x => if before x then lower_bound_loop fuel' before l (first + half + 1) (len - half - 1)
                      else lower_bound_loop fuel' before l first half
          | None => first
          end
      end
  end.
Definition lower_bound {A} (before : A -> bool) (l : list A) : nat := lower_bound_loop (length l) before l 0 (length l).
(** lower_bound and the check after it, the same everywhere below: the element of that name *)
Definition find_named {A} (name : A -> str) (l : list A) (key : str) : option A :=
  match nth_error l (lower_bound (fun x => str_ltb (name x) key) l) with
  | Some x => if str_eqb (name x) key then Some x else None
  | None => None
  end.

(** GenNamespace.cpp 671-716 genFindField, 718-761 genGindMessage, 765-810 genFindFrame,
    812-855 genFindInterface: [leaf] gives the elements of one namespace (352-366, 389-396,
    424-466: created from the lists of the parser, in their order).  Accepted interfaces
    have names, so genAdjustedName (GenInterface.cpp 202-210) is the name and the lookup
    by an empty text (genFindInterface only) is not modelled.  The result is the element and the path to
    its namespace.  A step drops at least the '.', so the length of the text suffices as
    [fuel]. *)
Fixpoint ns_find {A} (fuel : nat) (name : A -> str) (leaf : nspace -> list A) (n : nspace) (ref : str) : option (list str * A) :=
  match fuel with
  | O => None
  | S fuel' =>
      let here := match find_named name (leaf n) ref with Some x => Some ([ns_name n], x) | None => None end in
      match first_seg ref with
      | (_, None) => here
      | (nsName, Some rest) =>
          if is_nil nsName then here
          else match find_named ns_name (map snd (ns_subs n)) nsName with
               | Some s => match ns_find fuel' name leaf s rest with Some (p, x) => Some (ns_name n :: p, x) | None => None end
               | None => None
               end
      end
  end.
(** GenSchema.cpp 107-143 genFindField, 150-186 genGindMessage, 193-229 genFindFrame,
    231-263 genFindInterface *)
Definition schema_find {A} (name : A -> str) (leaf : nspace -> list A) (sc : schema) (ref : str) : option (list str * A) :=
  let '(nsName, rest) := match first_seg ref with (a, Some r) => (a, r) | (_, None) => ([], ref) end in
  match find_named ns_name (map snd (sc_ns sc)) nsName with
  | Some n => ns_find (S (length rest)) name leaf n rest
  | None => None
  end.
(** GenGenerator.cpp 521-547 genParseExternalRef: the number of the schema ([None] if there
    is none of that name) and the rest of the reference.  [cur]: the current schema. *)
Definition gen_parse_ref (schemas : list schema) (cur : nat) (ref : str) : option nat * str :=
  match ref with
  | [] => (Some cur, ref)
  | c :: r =>
      if negb (ch_eqb c c_schema) then (Some cur, ref)
      else let '(name, rest) := match first_seg r with (a, Some b) => (a, b) | (_, None) => (r, []) end in
           (find_idx (fun s => str_eqb (sc_name s) name) schemas, rest)
  end.
(** GenGenerator.cpp 302-369 genFindField, genGindMessage, genFindFrame, genFindInterface.
    The result: the number of the schema, the path, the element. *)
Definition gen_find {A} (name : A -> str) (leaf : nspace -> list A) (schemas : list schema) (cur : nat) (ref : str) : option (nat * list str * A) :=
  match gen_parse_ref schemas cur ref with
  | (Some i, rest) =>
      if is_nil rest then None
      else match nth_error schemas i with
           | Some sc => match schema_find name leaf sc rest with Some (p, x) => Some (i, p, x) | None => None end
           | None => None
           end
  | (None, _) => None
  end.
Definition genFindField := gen_find f_name ns_fields_list.
Definition genGindMessage := gen_find m_name ns_messages_list.
Definition genFindFrame := gen_find fr_name ns_frames_list.
Definition genFindInterface := gen_find if_name ns_ifaces_list.

(** ** Selecting *)
(** an element is known by the number of its schema, the path of its namespace and its name *)
Definition place_id := (nat * list str * str)%type.
(** GenNamespace.cpp 184-196, GenSchema.cpp 461-473, GenGenerator.cpp 500-512: the elements
    that genSetAllMessagesReferenced and genSetAllInterfacesReferenced mark *)
Definition mark_all {A} (name : A -> str) (leaf : nspace -> list A) (schemas : list schema) : list place_id :=
  concat (map (fun '(i, sc) => flat_map (fun e => map (fun x => (i, [ns_name (snd e)], name x)) (leaf (snd e))) (sc_ns sc))
              (combine (seq 0 (length schemas)) schemas)).
(** the options of the generator object: GenGenerator.cpp 166-194.  [go_list]: name and contents of the
    file with the list of messages, contents [None] if it cannot be opened *)
Record gen_options := mkGO { go_list : str * option str; go_platform : str; go_iface : str }.
(** GenGenerator.cpp 560-582 genReferenceRequestedInterfacesInternal.  After the elements of
    all the schemas are created (434-440) the current schema is the last one. *)
Definition last_schema (schemas : list schema) : nat := length schemas - 1.
Definition reference_interfaces (schemas : list schema) (o : gen_options) : res (list place_id) :=
  if is_nil (go_iface o) then Ok (mark_all if_name ns_ifaces_list schemas)
  else match genFindInterface schemas (last_schema schemas) (go_iface o) with
       | Some (i, p, x) => Ok [(i, p, if_name x)]
       | None => Err
       end.
(** 609-631 genProcessMessagesListFileInternal *)
Definition reference_listed (schemas : list schema) (contents : option str) : res (list place_id) :=
  match contents with
  | None => Err
  | Some text =>
      lines <- genStrSplitByAnyChar text [nl; chr 13] true ;;
      mapM (fun l => match genGindMessage schemas (last_schema schemas) l with
                     | Some (i, p, x) => Ok (i, p, m_name x)
                     | None => Err
                     end) lines
  end.
(** the place of a message of genGetAllMessages *)
Definition place_of (i : nat) (m : gen_message) : place_id := (i, rev (map snd (tl (fst m))), m_name (snd m)).
(** GenSchema.cpp 644-652 genGetAllMessages *)
Definition schema_messages (sc : schema) : list gen_message := flat_map (fun e => genGetAllMessages [] (snd e)) (sc_ns sc).
(** 633-667 genProcessForcedPlatformInternal *)
Definition reference_platform (schemas : list schema) (p : str) : res (list place_id) :=
  let known := fun sc => mem_str p (sc_platforms sc) && negb (is_nil (schema_messages sc)) in
  if existsb known schemas then
    Ok (concat (map (fun '(i, sc) => if mem_str p (sc_platforms sc)
                                     then map (place_of i) (filter (check_platform p) (schema_messages sc)) else [])
                    (combine (seq 0 (length schemas)) schemas)))
  else Err.
(** 584-607 genReferenceRequestedMessagesInternal *)
Definition reference_messages (schemas : list schema) (o : gen_options) : res (list place_id) :=
  if is_nil (fst (go_list o)) && is_nil (go_platform o) then Ok (mark_all m_name ns_messages_list schemas)
  else if negb (is_nil (fst (go_list o))) && negb (is_nil (go_platform o)) then Err
  else if negb (is_nil (fst (go_list o))) then reference_listed schemas (snd (go_list o))
  else reference_platform schemas (go_platform o).

(** ** Writing *)
Definition place_eqb (a b : place_id) : bool :=
  let '(i, p, x) := a in let '(j, q, y) := b in
  Nat.eqb i j && str_eqb x y && (Nat.eqb (length p) (length q) && forallb (fun e => str_eqb (fst e) (snd e)) (combine p q)).
(** GenGenerator.cpp 472-481, GenSchema.cpp genWrite, GenNamespace.cpp 99-107, GenMessage.cpp
    189-203: all the messages of all the namespaces are visited and those referenced are written
    (the derived class's genWriteImpl).  Files are not modelled: the result is which messages. *)
Definition written_messages (schemas : list schema) (marks : list place_id) : list (nat * gen_message) :=
  concat (map (fun '(i, sc) => map (pair i) (filter (fun m => existsb (place_eqb (place_of i m)) marks) (schema_messages sc)))
              (combine (seq 0 (length schemas)) schemas)).
(** the part of genPrepare (434-446) and genWrite concerning messages *)
Definition generated_messages (schemas : list schema) (o : gen_options) : res (list (nat * gen_message)) :=
  _ <- reference_interfaces schemas o ;;
  marks <- reference_messages schemas o ;;
  Ok (written_messages schemas marks).

(** GenNamespace.cpp 872-887 genGetAllInterfaces, with the path (outermost first) to the namespace of each *)
Fixpoint genGetAllInterfaces (pre : list str) (n : nspace) {struct n} : list (list str * iface) :=
  match n with
  | mkNs name _ _ subs _ _ is _ =>
      (fix go (l : list (str * nspace)) : list (list str * iface) :=
         match l with [] => [] | (_, s) :: l' => genGetAllInterfaces (pre ++ [name]) s ++ go l' end) subs ++
      map (pair (pre ++ [name])) (by_name if_name is)
  end.
(** GenSchema.cpp 634-642 *)
Definition schema_interfaces (sc : schema) : list (list str * iface) := flat_map (fun e => genGetAllInterfaces [] (snd e)) (sc_ns sc).
(** GenGenerator.cpp 549-558 with GenNamespace.cpp 955-975 genAddDefaultInterface: a default interface is
    added to the last schema *)
Definition default_interface (schemas : list schema) : bool :=
  match nth_error schemas (last_schema schemas) with Some sc => is_nil (schema_interfaces sc) | None => false end.
(** GenInterface.cpp 167-178 genWrite: the interfaces of the schemas which are written *)
Definition generated_interfaces (schemas : list schema) (o : gen_options) : res (list (nat * (list str * iface))) :=
  marks <- reference_interfaces schemas o ;;
  _ <- reference_messages schemas o ;;
  Ok (concat (map (fun '(i, sc) => map (pair i) (filter (fun x => existsb (place_eqb (i, fst x, if_name (snd x))) marks) (schema_interfaces sc)))
              (combine (seq 0 (length schemas)) schemas))).
