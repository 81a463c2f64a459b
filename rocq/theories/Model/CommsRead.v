(** Model of the functions of generated messages and bundles which read and refresh the members
    one after another: app/commsdsl2comms/src/CommsMessage.cpp, CommsBundleField.cpp.  The version
    update and the condition of a message are included; code injected by the user is not. *)
From Verif.Model Require Import Base Common Units Field Message GenUtil GenComms CommsInt CommsCond CommsPrefix.

(** The code of a member: its access name, commsDefBundledReadPrepareFuncBody and
    commsDefBundledRefreshFuncBody. *)
Record member_code := mkCode { mc_name : str; mc_prepare : str; mc_refresh : str }.
(** CommsOptionalField.cpp 433-441, CommsStringField.cpp, CommsDataField.cpp, CommsListField.cpp
    (see CommsPrefix.v), CommsField.cpp 620-623 for the other kinds *)
Definition member_prepare (ce : cond_env) (up : list velem) (sibs : list field) (f : field) : res str :=
  match f with
  | FOptional _ _ _ _ None => Ok []
  | FOptional _ _ _ _ (Some _) => Ok (L "refresh_" ++ genAccessName (f_name f) ++ L "();" ++ [nl])
  | _ => prepare_body (ce_gen ce) up sibs f
  end.
(** CommsOptionalField.cpp 443-476 (CommsCond.v), CommsPrefix.v, CommsField.cpp 635-638 *)
Definition member_refresh (ce : cond_env) (up : list velem) (sibs : list field) (f : field) : res str :=
  match f with
  | FOptional _ _ _ _ None => Ok []
  | FOptional _ _ _ _ (Some c) => CommsCond.refresh_body ce up sibs f c
  | _ => CommsPrefix.refresh_body (ce_gen ce) up sibs f
  end.
(** CommsMessage.cpp 276-281, CommsBundleField.cpp 365-371 *)
Definition member_codes (ce : cond_env) (up : list velem) (sibs : list field) : res (list member_code) :=
  mapM (fun f => p <- member_prepare ce up sibs f ;; r <- member_refresh ce up sibs f ;;
                 Ok (mkCode (genAccessName (f_name f)) p r)) sibs.

(** ** Reading *)
(** the functions of comms::MessageBase ([msg]) and comms::field::Bundle *)
Definition read_func (msg : bool) (what : str) : str := (if msg then L "doRead" else L "read") ++ what.
(** CommsMessage.cpp 1297-1300, CommsBundleField.cpp 242-245 *)
Definition es_check : str :=
  L "if (es != comms::ErrorStatus::Success) {" ++ [nl] ++ L "    break;" ++ [nl] ++ L "}" ++ [nl].
(** CommsMessage.cpp 1302-1330, CommsBundleField.cpp 247-275: the loop from the member [l] on.
    [first]: idx is 0, [prev]: the access name of the member of prevIdx, if that is not -1. *)
Fixpoint reads_from (msg first : bool) (prev : option str) (l : list member_code) : list str * option str :=
  match l with
  | [] => ([], prev)
  | m :: l' =>
      if is_nil (mc_prepare m) then reads_from msg false prev l'
      else
        let prep := L "readPrepare_" ++ mc_name m ++ L "();" ++ [nl] in
        if first then let (r, q) := reads_from msg false prev l' in (prep :: r, q)
        else
          let call :=
            match prev with
            | None => L "es = Base::template " ++ read_func msg (L "UntilAndUpdateLen") ++ L "<FieldIdx_" ++ mc_name m
            | Some p => L "es = Base::template " ++ read_func msg (L "FromUntilAndUpdateLen") ++ L "<FieldIdx_" ++ p ++ L ", FieldIdx_" ++ mc_name m
            end ++ L ">(iter, len);" ++ [nl] in
          let (r, q) := reads_from msg false (Some (mc_name m)) l' in
          ((call ++ es_check ++ [nl] ++ prep) :: r, q)
  end.
(** CommsMessage.cpp 1337-1344, CommsBundleField.cpp 277-289; nothing if no member needs it *)
Definition reads_of (msg : bool) (l : list member_code) : list str :=
  let (r, q) := reads_from msg true None l in
  if is_nil r then []
  else r ++ [match q with
             | None => L "es = Base::" ++ read_func msg [] ++ L "(iter, len);" ++ [nl]
             | Some p => L "es = Base::template " ++ read_func msg (L "From") ++ L "<FieldIdx_" ++ p ++ L ">(iter, len);" ++ [nl]
             end].
(** CommsBundleField.cpp 291-296 *)
Definition bundle_read_templ : str :=
  L "auto es = comms::ErrorStatus::Success;" ++ [nl] ++
  L "do {" ++ [nl] ++
  L "    #^#READS#$#" ++ [nl] ++
  L "} while(false);" ++ [nl] ++
  L "return es;".
(** CommsBundleField.cpp 236-302 commsDefReadFuncBodyImpl *)
Definition bundle_read (l : list member_code) : res str :=
  let reads := reads_of false l in
  if is_nil reads then Ok []
  else genProcessTemplate bundle_read_templ [(L "READS", genStrListToString reads [nl] [])] false.

(** CommsMessage.cpp 1639-1644 *)
Definition read_cond_templ : str :=
  L "bool validRead =" ++ [nl] ++
  L "    #^#CODE#$#;" ++ [nl] ++ [nl] ++
  L "if (!validRead) {" ++ [nl] ++
  L "    return comms::ErrorStatus::InvalidMsgData;" ++ [nl] ++
  L "}" ++ [nl].
(** CommsMessage.cpp 1624-1651 commsDefReadConditionsCodeInternal *)
Definition read_condition (ce : cond_env) (up : list velem) (rc : option cond) : res str :=
  match rc with
  | None => Ok []
  | Some c =>
      t <- cond_text ce up [] true c ;;
      if is_nil t then Ok [] else genProcessTemplate read_cond_templ [(L "CODE", t)] false
  end.
(** CommsMessage.cpp 1346-1353 *)
Definition message_reads_templ : str :=
  L "#^#UPDATE_VERSION#$#" ++ [nl] ++
  L "auto es = comms::ErrorStatus::Success;" ++ [nl] ++
  L "do {" ++ [nl] ++
  L "    #^#READS#$#" ++ [nl] ++
  L "} while (false);" ++ [nl] ++ [nl] ++
  L "#^#FAIL_ON_INVALID#$#" ++ [nl] ++
  L "return es;" ++ [nl].
(** CommsMessage.cpp 1360-1363 *)
Definition fail_templ : str :=
  L "if (!#^#VALID_PREFIX#$#doValid()) {" ++ [nl] ++
  L "    es = comms::ErrorStatus::InvalidMsgData;" ++ [nl] ++
  L "}" ++ [nl].
(** CommsMessage.cpp 1386-1394 *)
Definition message_read_templ : str :=
  L "/// @brief Generated read functionality." ++ [nl] ++
  L "template <typename TIter>" ++ [nl] ++
  L "comms::ErrorStatus doRead#^#ORIG#$#(TIter& iter, std::size_t len)" ++ [nl] ++
  L "{" ++ [nl] ++
  L "    #^#READ_COND#$#" ++ [nl] ++
  L "    #^#READS#$#" ++ [nl] ++
  L "}" ++ [nl].
(** CommsMessage.cpp 1283-1406 for a message without injected read code: [replaced]: the schema asks
    for the code to be replaced, [cond]: commsDefReadConditionsCodeInternal, [fail]:
    parseIsFailOnInvalid, [valid]: whether the class has a doValid() of its own.  The outer template
    with the code of the user (empty here) only changes blank rows. *)
Definition message_read (ge : gen_env) (replaced : bool) (cond : str) (fail valid : bool) (l : list member_code) : res str :=
  if replaced then Ok []
  else
    let reads := reads_of true l in
    if is_nil cond && is_nil reads then Ok []
    else
      code <-
        (if is_nil reads then Ok (L "return Base::doRead(iter, len);" ++ [nl])
         else
           f <- (if fail then genProcessTemplate fail_templ (if valid then [] else [(L "VALID_PREFIX", L "Base::")]) false else Ok []) ;;
           genProcessTemplate message_reads_templ
             [(L "READS", genStrListToString reads [nl] []);
              (L "UPDATE_VERSION", if ge_versionDependent ge then L "Base::doFieldsVersionUpdate();" else []);
              (L "FAIL_ON_INVALID", f)] false) ;;
      genProcessTemplate message_read_templ [(L "READ_COND", cond); (L "READS", code); (L "ORIG", [])] false.

(** ** Refreshing *)
(** CommsMessage.cpp 1432-1440, CommsBundleField.cpp 313-322 *)
Definition refreshes (l : list member_code) : list str :=
  map (fun m => L "updated = refresh_" ++ mc_name m ++ L "() || updated;") (filter (fun m => negb (is_nil (mc_refresh m))) l).
(** CommsBundleField.cpp 307-310 *)
Definition bundle_refresh_templ : str :=
  L "bool updated = Base::refresh();" ++ [nl] ++
  L "#^#FIELDS#$#" ++ [nl] ++
  L "return updated;" ++ [nl].
(** CommsBundleField.cpp 305-332 commsDefRefreshFuncBodyImpl *)
Definition bundle_refresh (l : list member_code) : res str :=
  if is_nil (refreshes l) then Ok []
  else genProcessTemplate bundle_refresh_templ [(L "FIELDS", genStrListToString (refreshes l) [nl] [])] false.
(** CommsMessage.cpp 1446-1453 *)
Definition message_refresh_templ : str :=
  L "/// @brief Generated refresh functionality." ++ [nl] ++
  L "bool doRefresh#^#ORIG#$#()" ++ [nl] ++
  L "{" ++ [nl] ++
  L "   bool updated = Base::doRefresh();" ++ [nl] ++
  L "   #^#FIELDS#$#" ++ [nl] ++
  L "   return updated;" ++ [nl] ++
  L "}" ++ [nl].
(** CommsMessage.cpp 1423-1478 without injected code *)
Definition message_refresh (replaced : bool) (l : list member_code) : res str :=
  if replaced || is_nil (refreshes l) then Ok []
  else genProcessTemplate message_refresh_templ [(L "FIELDS", genStrListToString (refreshes l) [nl] []); (L "ORIG", [])] false.

(** ** The functions called by them *)
(** CommsMessage.cpp 1053-1064, CommsBundleField.cpp 193-204 *)
Definition prepare_def_templ : str :=
  L "void readPrepare_#^#ACC_NAME#$#()" ++ [nl] ++
  L "{" ++ [nl] ++
  L "    #^#CODE#$#" ++ [nl] ++
  L "}" ++ [nl].
(** CommsMessage.cpp 1067-1078, CommsBundleField.cpp 207-218 *)
Definition refresh_def_templ : str :=
  L "bool refresh_#^#ACC_NAME#$#()" ++ [nl] ++
  L "{" ++ [nl] ++
  L "    #^#CODE#$#" ++ [nl] ++
  L "}" ++ [nl].
(** CommsMessage.cpp 1035-1080 commsDefPrivateInternal, CommsBundleField.cpp 177-220
    commsDefPrivateCodeImpl: the definitions *)
Definition prepare_defs (l : list member_code) : res (list str) :=
  mapM (fun m => genProcessTemplate prepare_def_templ [(L "ACC_NAME", mc_name m); (L "CODE", mc_prepare m)] false)
       (filter (fun m => negb (is_nil (mc_prepare m))) l).
Definition refresh_defs (l : list member_code) : res (list str) :=
  mapM (fun m => genProcessTemplate refresh_def_templ [(L "ACC_NAME", mc_name m); (L "CODE", mc_refresh m)] false)
       (filter (fun m => negb (is_nil (mc_refresh m))) l).
(** CommsMessage.cpp 960-978, CommsBundleField.cpp 630-658: the options HasCustomRead (bundles only)
    and HasCustomRefresh *)
Definition custom_opts (msg : bool) (l : list member_code) : list str :=
  (if negb msg && existsb (fun m => negb (is_nil (mc_prepare m))) l then [L "comms::option::def::HasCustomRead"] else []) ++
  (if existsb (fun m => negb (is_nil (mc_refresh m))) l then [L "comms::option::def::HasCustomRefresh"] else []).

(** ** Validity *)
(** CommsMessage.cpp 1674-1684 *)
Definition message_valid_templ : str :=
  L "// Generated validity check functionality" ++ [nl] ++
  L "bool doValid#^#SUFFIX#$#() const" ++ [nl] ++
  L "{" ++ [nl] ++
  L "    if (!Base::doValid()) {" ++ [nl] ++
  L "        return false;" ++ [nl] ++
  L "    }" ++ [nl] ++ [nl] ++
  L "    return" ++ [nl] ++
  L "        #^#CODE#$#;" ++ [nl] ++
  L "}" ++ [nl].
(** CommsMessage.cpp 1653-1694 commsDefOrigValidCodeInternal without injected code (then the function
    is there even if the schema asks for its replacement) *)
Definition message_valid (ce : cond_env) (up : list velem) (sibs : list field) (vc : option cond) : res str :=
  match vc with
  | None => Ok []
  | Some c =>
      t <- cond_text ce up sibs true c ;;
      if is_nil t then Ok [] else genProcessTemplate message_valid_templ [(L "CODE", t); (L "SUFFIX", [])] false
  end.
(** CommsBundleField.cpp 348-355 *)
Definition bundle_valid_templ : str :=
  L "if (!Base::valid()) {" ++ [nl] ++
  L "    return false;" ++ [nl] ++
  L "}" ++ [nl] ++ [nl] ++
  L "return" ++ [nl] ++
  L "    #^#CODE#$#;" ++ [nl].
(** CommsBundleField.cpp 334-362 commsDefValidFuncBodyImpl *)
Definition bundle_valid (ce : cond_env) (up : list velem) (sibs : list field) (vc : option cond) : res str :=
  match vc with
  | None => Ok []
  | Some c =>
      t <- cond_text ce up sibs true c ;;
      if is_nil t then Ok [] else genProcessTemplate bundle_valid_templ [(L "CODE", t)] false
  end.

(** ** A message *)
(** CommsMessage.cpp 45-48 commsHasOrigCode; [m_ovr]: read, write, refresh, length, valid, name *)
Definition replaced_code (m : message) (k : nat) : bool :=
  match nth_error (m_ovr m) k with Some OvrReplace => true | _ => false end.
(** CommsMessage.cpp 1283-1421 *)
Definition message_read_code (ce : cond_env) (up : list velem) (m : message) : res str :=
  l <- member_codes ce up (m_fields m) ;;
  cond <- read_condition ce up (m_readCond m) ;;
  v <- message_valid ce up (m_fields m) (m_validCond m) ;;
  message_read (ce_gen ce) (replaced_code m 0) cond (m_failOnInvalid m) (negb (is_nil v)) l.
(** CommsMessage.cpp 1423-1478 *)
Definition message_refresh_code (ce : cond_env) (up : list velem) (m : message) : res str :=
  l <- member_codes ce up (m_fields m) ;; message_refresh (replaced_code m 2) l.
