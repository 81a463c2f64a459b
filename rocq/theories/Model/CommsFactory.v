(** Model of what commsdsl2comms generates from the set of messages of a
    namespace: app/commsdsl2comms/src/CommsMsgFactory.cpp (creation by id),
    CommsDispatch.cpp (dispatch by id), CommsInputMessages.cpp (lists of messages)
    and CommsMsgId.cpp (enumeration of ids). *)
From Verif.Model Require Import Base Common Field IntField Message Frame Protocol GenUtil GenComms.

(** a message and where it is: itself and its parents, innermost first *)
Definition gen_message := (elem_path * message)%type.

(** lib/src/gen/GenNamespace.cpp 889-904 genGetAllMessages: first those of the
    sub-namespaces; [parents] are the elements around the namespace.  The messages are
    those parseMessages() returned (439-453), sorted by their names. *)
Fixpoint genGetAllMessages (parents : elem_path) (n : nspace) {struct n} : list gen_message :=
  match n with
  | mkNs name _ _ subs _ ms _ _ =>
      (fix go (l : list (str * nspace)) : list gen_message :=
         match l with [] => [] | (_, s) :: l' => genGetAllMessages ((ENamespace, name) :: parents) s ++ go l' end) subs ++
      map (fun m => ((EMessage, m_name m) :: (ENamespace, name) :: parents, m)) (by_name m_name ms)
  end.
(** 906-911 genGetAllMessagesIdSorted with lib/src/gen/GenGenerator.cpp 951-966
    genSortMessages.  std::sort leaves the order of messages with equal ids and
    equal orders open; here it is the one of a stable sort. *)
Definition genGetAllMessagesIdSorted (parents : elem_path) (n : nspace) : list gen_message :=
  isort (fun a b => msg_ltb (snd a) (snd b)) (genGetAllMessages parents n).

(** The checks of messages: CommsMsgFactory.cpp 427-520, CommsDispatch.cpp 325-468,
    CommsInputMessages.cpp 155-270 (the same in the three files). *)
Definition not_sender (s : sender) (m : gen_message) : bool :=
  match m_sender (snd m), s with Client, Client | Server, Server | Both, Both => false | _, _ => true end.
Definition check_all (m : gen_message) : bool := true.
Definition check_client (m : gen_message) : bool := not_sender Client m.
Definition check_server (m : gen_message) : bool := not_sender Server m.
Definition check_platform (p : str) (m : gen_message) : bool :=
  match m_platforms (snd m) with [] => true | ps => mem_str p ps end.
Definition check_platform_client (p : str) (m : gen_message) : bool := check_platform p m && check_client m.
Definition check_platform_server (p : str) (m : gen_message) : bool := check_platform p m && check_server m.

(** Which lists are written: CommsMsgFactory.cpp 427-560, CommsInputMessages.cpp
    178-275 and CommsDispatch.cpp 325-468, for the whole protocol ([None]) and for
    each platform of the schema.  Those of the message bundles given on the command
    line (Extra) are not modelled. *)
Inductive target := AllMsgs | ClientInput | ServerInput.
Definition check_of (p : option str) (t : target) : gen_message -> bool :=
  match p, t with
  | None, AllMsgs => check_all
  | None, ClientInput => check_client
  | None, ServerInput => check_server
  | Some p, AllMsgs => check_platform p
  | Some p, ClientInput => check_platform_client p
  | Some p, ServerInput => check_platform_server p
  end.
Definition targets (platforms : list str) : list (option str * target) :=
  flat_map (fun p => [(p, AllMsgs); (p, ClientInput); (p, ServerInput)]) (None :: map Some platforms).
(** the names of the headers in input/ (and, with MsgFactory after them, in factory/) *)
Definition input_name (p : option str) (t : target) : str :=
  match p, t with
  | None, AllMsgs => L "AllMessages"
  | None, ClientInput => L "ClientInputMessages"
  | None, ServerInput => L "ServerInputMessages"
  | Some p, AllMsgs => genClassName p ++ L "Messages"
  | Some p, ClientInput => genClassName p ++ L "ClientInputMessages"
  | Some p, ServerInput => genClassName p ++ L "ServerInputMessages"
  end.

(** CommsMessagesMap: mappedMessages[id].push_back(m), CommsMsgFactory.cpp 345-355
    and CommsDispatch.cpp 603-617; std::map is ordered by the id. *)
Fixpoint push_id {A} (id : Z) (m : A) (l : list (Z * list A)) : list (Z * list A) :=
  match l with
  | [] => [(id, [m])]
  | (k, ms) :: l' =>
      if id <? k then (id, [m]) :: l
      else if id =? k then (k, ms ++ [m]) :: l'
      else (k, ms) :: push_id id m l'
  end.
Definition map_messages (check : gen_message -> bool) (l : list gen_message) : list (Z * list gen_message) :=
  fold_left (fun acc m => if check m then push_id (m_id (snd m)) m acc else acc) l [].

(** CommsMsgFactory.cpp 357-363 *)
Definition factory_unique (l : list (Z * list gen_message)) : bool :=
  forallb (fun e => Nat.leb (length (snd e)) 1) l.
(** CommsDispatch.cpp 605-615 hasMultipleMessagesWithSameId *)
Definition dispatch_multiple (l : list (Z * list gen_message)) : bool := negb (factory_unique l).

(** the id becomes the std::intmax_t parameter of genNumToStringWithHexComment *)
Definition id_text (id : Z) : res str := genNumToStringWithHexComment (to_s64 id).

(** rows of a text, each ended by a newline *)
Definition rows (l : list str) : str := concat (map (fun r => r ++ [nl]) l).

(** ** CommsMsgFactory.cpp *)
(** 58-82 commsDynMemAllocCodeFuncInternal; [None] is a negative idx.  [main] is the
    main namespace of the schema. *)
Definition alloc_templ : str := L "return MsgPtr(new #^#MSG_TYPE#$#<TInterface, TProtOptions>);".
Definition alloc_idx_templ : str :=
  L "if (idx == #^#IDX#$#) {" ++ [nl] ++
  L "    return MsgPtr(new #^#MSG_TYPE#$#<TInterface, TProtOptions>);" ++ [nl] ++
  L "}".
Definition alloc_code (main : str) (m : gen_message) (idx : option nat) : res str :=
  match idx with
  | None => genProcessTemplate alloc_templ [(L "MSG_TYPE", genScopeFor main (fst m))] false
  | Some i =>
      t <- genNumToStringS (Z.of_nat i) ;;
      genProcessTemplate alloc_idx_templ [(L "MSG_TYPE", genScopeFor main (fst m)); (L "IDX", t)] false
  end.
(** the loop over the messages with one id, 134-137 *)
Fixpoint alloc_codes (main : str) (i : nat) (ms : list gen_message) : res (list str) :=
  match ms with
  | [] => Ok []
  | m :: ms' => t <- alloc_code main m (Some i) ;; ts <- alloc_codes main (S i) ms' ;; Ok (t :: ts)
  end.
(** 93-166 commsGetMsgAllocCodeInternal *)
Definition create_templ : str :=
  rows [L "auto updateReasonFunc ="; L "    [reason](CreateFailureReason val)"; L "    {";
        L "        if (reason != nullptr) {"; L "            *reason = val;"; L "        }"; L "    };"; [];
        L "#^#CHECK_IDX#$#"; L "updateReasonFunc(CreateFailureReason::None);";
        L "switch (static_cast<std::intmax_t>(id)) {"; L "    #^#CASES#$#"; L "    default: break;"; L "}"; [];
        L "updateReasonFunc(CreateFailureReason::InvalidId);"; L "return MsgPtr();"].
Definition unique_case_templ : str := L "case #^#ID#$#: #^#CODE#$#".
Definition multi_case_templ : str :=
  L "case #^#ID#$#: " ++ [nl] ++ L "    #^#CODE#$#" ++ [nl] ++ L "    break;" ++ [nl].
Definition check_idx_text : str :=
  rows [L "if (1U <= idx) {"; L "    updateReasonFunc(CreateFailureReason::InvalidId);"; L "    return MsgPtr();"; L "}"].
(** without elements in a list front() is undefined, which does not happen *)
Definition create_case (main : str) (unique : bool) (e : Z * list gen_message) : res str :=
  id <- id_text (fst e) ;;
  if unique then
    m <- match snd e with m :: _ => Ok m | [] => UB end ;;
    c <- alloc_code main m None ;;
    genProcessTemplate unique_case_templ [(L "ID", id); (L "CODE", c)] false
  else
    cs <- alloc_codes main 0 (snd e) ;;
    genProcessTemplate multi_case_templ [(L "ID", id); (L "CODE", genStrListToString cs [nl] [])] false.
Definition create_code (main : str) (l : list (Z * list gen_message)) (unique : bool) : res str :=
  cases <- mapM (create_case main unique) l ;;
  genProcessTemplate create_templ
    ((L "CASES", genStrListToString cases [nl] []) :: if unique then [(L "CHECK_IDX", check_idx_text)] else []) false.
(** 168-198 commsGetMsgCountCodeInternal *)
Definition count_templ : str :=
  rows [L "switch (static_cast<std::intmax_t>(id))"; L "{"; L "    #^#CASES#$#"; L "    default: break;"; L "}"; []; L "return 0U;"].
Definition count_case (e : Z * list gen_message) : res str :=
  id <- id_text (fst e) ;;
  genProcessTemplate (L "case #^#ID#$#: return #^#SIZE#$#;")
    [(L "ID", id); (L "SIZE", genNumToStringU (Z.of_nat (length (snd e))) 0)] false.
Definition count_code (l : list (Z * list gen_message)) : res str :=
  cases <- mapM count_case l ;;
  genProcessTemplate count_templ [(L "CASES", genStrListToString cases [nl] [])] false.

(** What commsWriteFileInternal (200-400) puts into the members createMsg, msgCount
    and hasUniqueIds of the factory class; the class around them (233-335) is fixed
    text and not modelled. *)
Record factory := mkFactory { fa_create : str; fa_count : str; fa_unique : bool }.
Definition factory_of (main : str) (parents : elem_path) (n : nspace) (check : gen_message -> bool) : res factory :=
  let l := map_messages check (genGetAllMessagesIdSorted parents n) in
  let unique := factory_unique l in
  cnt <- count_code l ;;
  cr <- create_code main l unique ;;
  Ok (mkFactory cr cnt unique).

(** ** CommsDispatch.cpp *)
(** 648-702 commsCasesCodeInternal *)
Definition msg_case_templ : str :=
  L "case #^#MSG_ID#$#:" ++ [nl] ++ L "{" ++ [nl] ++
  L "    using MsgType = #^#MSG_TYPE#$#<InterfaceType, TProtOptions>;" ++ [nl] ++
  L "    return handler.handle(static_cast<MsgType&>(msg));" ++ [nl] ++ L "}".
Definition idx_case_templ : str :=
  L "case #^#MSG_ID#$#:" ++ [nl] ++ L "{" ++ [nl] ++ L "    switch (idx) {" ++ [nl] ++ L "    #^#IDX_CASES#$#" ++ [nl] ++
  L "    default:" ++ [nl] ++ L "        return handler.handle(msg);" ++ [nl] ++ L "    };" ++ [nl] ++ L "    break;" ++ [nl] ++ L "}".
Definition msg_case (main : str) (id : str) (m : gen_message) : res str :=
  genProcessTemplate msg_case_templ [(L "MSG_ID", id); (L "MSG_TYPE", genScopeFor main (fst m))] false.
Fixpoint idx_cases (main : str) (i : nat) (ms : list gen_message) : res (list str) :=
  match ms with
  | [] => Ok []
  | m :: ms' => t <- msg_case main (genNumToStringU (Z.of_nat i) 0) m ;; ts <- idx_cases main (S i) ms' ;; Ok (t :: ts)
  end.
Definition dispatch_case (main : str) (e : Z * list gen_message) : res str :=
  id <- id_text (fst e) ;;
  match snd e with
  | [m] => msg_case main id m
  | ms => cs <- idx_cases main 0 ms ;;
          genProcessTemplate idx_case_templ [(L "MSG_ID", id); (L "IDX_CASES", genStrListToString cs [nl] [])] false
  end.
Definition dispatch_cases (main : str) (l : list (Z * list gen_message)) : res str :=
  cs <- mapM (dispatch_case main) l ;; Ok (genStrListToString cs [nl] []).
(** The bodies of the two functions dispatchXMessage(id, idx, msg, handler) and
    dispatchXMessage(id, msg, handler) in commsSingleMessagePerIdTempl (134-142 and
    161-164) and in commsMultipleMessagesPerIdTempl (238-246 and 261-263); the
    documentation and the functions which only pass DEFAULT_OPTIONS are not
    modelled.  [name] is the argument of commsDispatchCodeInternal (601-646). *)
Definition switch_body_templ : str :=
  rows [L "    using InterfaceType = typename std::decay<decltype(msg)>::type;";
        L "    switch(static_cast<std::intmax_t>(id)) {"; L "    #^#CASES#$#"; L "    default:"; L "        break;"; L "    };"; [];
        L "    return handler.handle(msg);"].
Definition single_idx_templ : str :=
  rows [L "    if (idx != 0U) {"; L "        return handler.handle(msg);"; L "    }";
        L "    return dispatch#^#NAME#$#Message<TProtOptions>(id, msg, handler);"].
Definition multi_no_idx_templ : str :=
  rows [L "    return dispatch#^#NAME#$#Message<TProtOptions>(id, 0U, msg, handler);"].
Record dispatcher := mkDispatcher { di_with_idx : str; di_without_idx : str }.
Definition dispatch_of (main name : str) (parents : elem_path) (n : nspace) (check : gen_message -> bool) : res dispatcher :=
  let l := map_messages check (genGetAllMessagesIdSorted parents n) in
  cases <- dispatch_cases main l ;;
  body <- genProcessTemplate switch_body_templ [(L "CASES", cases)] false ;;
  if dispatch_multiple l then
    other <- genProcessTemplate multi_no_idx_templ [(L "NAME", name)] false ;; Ok (mkDispatcher body other)
  else
    other <- genProcessTemplate single_idx_templ [(L "NAME", name)] false ;; Ok (mkDispatcher other body).

(** ** CommsInputMessages.cpp 45-155 writeFileInternal *)
(** the arguments of the std::tuple, #^#MESSAGES#$# (87, 136) *)
Definition input_list (main : str) (parents : elem_path) (n : nspace) (check : gen_message -> bool) : str :=
  genStrListToString
    (map (fun m => genScopeFor main (fst m) ++ L "<TBase, TOpt>") (filter check (genGetAllMessagesIdSorted parents n)))
    (L "," ++ [nl]) [].
(** the headers of the messages, in front of genPrepareIncludeStatement (86) *)
Definition input_headers (main : str) (parents : elem_path) (n : nspace) (check : gen_message -> bool) : list str :=
  map (fun m => genRelHeaderPathFor main (fst m)) (filter check (genGetAllMessagesIdSorted parents n)).
(** the names of the aliases (84-85); each is printed as
    using prefix_ ## NAME ## suffix_ = SCOPE<interface_, opts_>; *)
Definition alias_names (parents : elem_path) (n : nspace) (check : gen_message -> bool) : list str :=
  map (fun m => genClassName (m_name (snd m))) (filter check (genGetAllMessagesIdSorted parents n)).

(** ** CommsMsgId.cpp *)
(** lib/src/gen/comms.cpp 312-335 genFullNameFor *)
Fixpoint genFullNameFor (p : elem_path) : str :=
  match p with
  | [] => []
  | (t, name) :: parents =>
      let r := genFullNameFor parents in
      r ++ (if is_nil r then [] else L "_") ++
      match t with ENamespace => name | _ => genClassName name end
  end.
(** 99-135 commsTypeInternal without a message id field (the case of such a field
    is left out); std::max_element *)
Definition msg_id_type (l : list gen_message) : str :=
  if fold_left Z.max (map (fun m => m_id (snd m)) l) 0 <=? 4294967295 then L "unsigned" else L "unsigned long long".
(** 137-175 commsIdsInternal, also without such a field; [all] are the messages of
    the schema, used by the global namespace when it has none itself *)
Definition msg_ids (all : list gen_message) (parents : elem_path) (n : nspace) : str :=
  let own := genGetAllMessagesIdSorted parents n in
  let l := if is_nil own && is_nil (ns_name n) then isort (fun a b => msg_ltb (snd a) (snd b)) all else own in
  genStrListToString
    (map (fun m => L "MsgId_" ++ genFullNameFor (fst m) ++ L " = " ++ genNumToStringU (m_id (snd m)) 0) l)
    (L "," ++ [nl]) [].
