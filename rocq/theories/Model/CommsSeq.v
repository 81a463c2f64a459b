(** Model of the generated definitions of string, data and list fields:
    app/commsdsl2comms/src/CommsStringField.cpp, CommsDataField.cpp, CommsListField.cpp. *)
From Verif.Model Require Import Base Common Field GenUtil GenComms CommsInt.

(** A field attached to a sequence (prefix, suffix, element): [true] with a member of the
    field itself, [false] with an external one.  [scope] is the result of genScopeFor of the
    external field (comms.cpp genScopeFor, see Model/GenComms.v). *)
Definition attachment : Type := (bool * field)%type.

(** CommsStringField.cpp 474-495, CommsDataField.cpp 469-490, CommsListField.cpp 602-624 and the
    like: the type of an attached field; [cls]: genName() of the field, [global]: genIsGlobalField,
    [sep]: what follows an external one ("> " or ">") *)
Definition attached_type (cls : str) (global : bool) (scope : field -> str) (sep : str) (a : attachment) : str :=
  if fst a then
    L "typename " ++ genClassName cls ++ L "Members" ++ (if global then L "<TOpt>" else []) ++ L "::" ++
    genClassName (c_name (f_common (snd a)))
  else scope (snd a) ++ L "<TOpt>" ++ sep.
(** an option with the type as its argument, if there is such a field *)
Definition attached_opt (opt : str) (cls : str) (global : bool) (scope : field -> str) (a : option attachment) (opts : list str) : list str :=
  match a with
  | None => opts
  | Some a => opts ++ [copt (opt ++ L "<" ++ attached_type cls global scope (L " ") a ++ L ">")]
  end.
(** CommsStringField.cpp 459-472, CommsDataField.cpp 454-467, CommsListField.cpp 587-600 *)
Definition fixed_size_opt (n : Z) (opts : list str) : list str :=
  if n =? 0 then opts else opts ++ [copt (L "SequenceFixedSize<" ++ genNumToStringU n 0 ++ L ">")].
(** CommsStringField.cpp 498-520; [ns]: genMainNamespace of the schema *)
Definition term_templ : str :=
  L "comms::option::def::SequenceTerminationFieldSuffix<" ++ [nl] ++
  L "    comms::field::IntValue<" ++ [nl] ++
  L "        #^#PROT_NAMESPACE#$#::field::FieldBase<>," ++ [nl] ++
  L "        std::uint8_t," ++ [nl] ++
  L "        comms::option::def::ValidNumValueRange<0, 0>," ++ [nl] ++
  L "        comms::option::def::FailOnInvalid<>" ++ [nl] ++
  L "    >" ++ [nl] ++
  L ">".
Definition zero_term_opt (ns : str) (zero : bool) (opts : list str) : res (list str) :=
  if negb zero then Ok opts
  else t <- genProcessTemplate term_templ [(L "PROT_NAMESPACE", ns)] false ;; Ok (opts ++ [t]).
(** CommsStringField.cpp 522-531, CommsDataField.cpp 493-502, CommsListField.cpp 703-717 *)
Definition forcing_opt (opt : str) (detached : str) (opts : list str) : list str :=
  if is_nil detached then opts else opts ++ [copt opt].

(** CommsStringField.cpp 446-457 commsDefFieldOptsInternal, before the options are joined *)
Definition string_opts (x : field_settings) (ns : str) (scope : field -> str) (c : common) (s : string_state)
    (pre : option attachment) : res (list str) :=
  let o := comms_def_options x c in
  let o := fixed_size_opt (st_length s) o in
  let o := attached_opt (L "SequenceSerLengthFieldPrefix") (c_name c) (fs_global x) scope pre o in
  o <- zero_term_opt ns (st_zeroSuffix s) o ;;
  Ok (forcing_opt (L "SequenceLengthForcingEnabled") (st_detached s) o).
(** CommsDataField.cpp 442-451 *)
Definition data_opts (x : field_settings) (scope : field -> str) (c : common) (s : data_state) (pre : option attachment) : list str :=
  let o := comms_def_options x c in
  let o := fixed_size_opt (d_length s) o in
  let o := attached_opt (L "SequenceSerLengthFieldPrefix") (c_name c) (fs_global x) scope pre o in
  forcing_opt (L "SequenceLengthForcingEnabled") (d_detached s) o.
(** CommsListField.cpp 554-567 587-717 *)
Definition list_opts (x : field_settings) (scope : field -> str) (c : common) (s : list_state)
    (cnt len elen term : option attachment) : list str :=
  let at_ o := attached_opt o (c_name c) (fs_global x) scope in
  let o := comms_def_options x c in
  let o := fixed_size_opt (l_count s) o in
  let o := at_ (L "SequenceSizeFieldPrefix") cnt o in
  let o := at_ (L "SequenceSerLengthFieldPrefix") len o in
  let o := at_ (if l_elemFixedLength s then L "SequenceElemFixedSerLengthFieldPrefix" else L "SequenceElemSerLengthFieldPrefix") elen o in
  let o := at_ (L "SequenceTerminationFieldSuffix") term o in
  let o := forcing_opt (L "SequenceSizeForcingEnabled") (l_detCount s) o in
  let o := forcing_opt (L "SequenceLengthForcingEnabled") (l_detLength s) o in
  forcing_opt (L "SequenceElemLengthForcingEnabled") (l_detElemLength s) o.

(** CommsStringField.cpp 140-158, CommsDataField.cpp 162-181, CommsListField.cpp 212-234
    commsDefBaseClassImpl; [elem]: the type of the elements, with ",\n    " in front *)
Definition seq_templ (head elem : str) : str :=
  head ++ L "<" ++ [nl] ++ L "    #^#PROT_NAMESPACE#$#::field::FieldBase<>" ++ elem ++ L "#^#COMMA#$#" ++ [nl] ++
  L "    #^#FIELD_OPTS#$#" ++ [nl] ++ L ">".
Definition seq_base (head elem ns element : str) (opts : list str) : res str :=
  let o := genStrListToString opts (L "," ++ [nl]) [] in
  genProcessTemplate (seq_templ head elem)
    [(L "PROT_NAMESPACE", ns); (L "ELEMENT", element); (L "FIELD_OPTS", o); (L "COMMA", if is_nil o then [] else L ",")] false.
Definition string_base (x : field_settings) (ns : str) (scope : field -> str) (c : common) (s : string_state) (pre : option attachment) : res str :=
  o <- string_opts x ns scope c s pre ;; seq_base (L "comms::field::String") [] ns [] o.
Definition data_base (x : field_settings) (ns : str) (scope : field -> str) (c : common) (s : data_state) (pre : option attachment) : res str :=
  seq_base (L "comms::field::ArrayList") (L "," ++ [nl] ++ L "    std::uint8_t") ns [] (data_opts x scope c s pre).
(** CommsListField.cpp 569-585 commsDefElementInternal: the type of the elements *)
Definition list_base (x : field_settings) (ns : str) (scope : field -> str) (c : common) (s : list_state) (elem : attachment)
    (cnt len elen term : option attachment) : res str :=
  seq_base (L "comms::field::ArrayList") (L "," ++ [nl] ++ L "    #^#ELEMENT#$#") ns
    (attached_type (c_name c) (fs_global x) scope [] elem) (list_opts x scope c s cnt len elen term).

(** CommsStringField.cpp 355-370, CommsDataField.cpp 409-424, CommsListField.cpp 521-536
    commsExtraBareMetalDefaultOptionsImpl *)
Definition bare_metal_opt (fixed : Z) : str :=
  if fixed =? 0 then L "comms::option::app::FixedSizeStorage<DEFAULT_SEQ_FIXED_STORAGE_SIZE>"
  else L "comms::option::app::SequenceFixedSizeUseFixedSizeStorage".

(** ** Default values *)
(** CommsStringField.cpp 160-178 commsDefConstructCodeImpl *)
Definition quote : str := [ascii_of_nat 34].
Definition string_init_templ : str :=
  L "static const char Str[] = " ++ quote ++ L "#^#STR#$#" ++ quote ++ L ";" ++ [nl] ++
  L "static const std::size_t StrSize = std::extent<decltype(Str)>::value;" ++ [nl] ++
  L "Base::setValue(typename Base::ValueType(&Str[0], StrSize - 1));" ++ [nl].
Definition string_init (s : string_state) : res str :=
  if is_nil (st_default s) then Ok [] else genProcessTemplate string_init_templ [(L "STR", st_default s)] false.
(** CommsDataField.cpp 41-53 commsBytesToString *)
Definition byte_str (b : Z) : str := L "0x" ++ pad0 2 (hex_str false b).
Definition bytes_str (l : list Z) : res str := genStrMakeMultiline (genStrListToString (map byte_str l) (L ", ") []) 60 true.
(** CommsDataField.cpp 183-203 commsDefConstructCodeImpl *)
Definition data_init_templ : str :=
  L "static const std::uint8_t Data[] = {" ++ [nl] ++ L "    #^#BYTES#$#" ++ [nl] ++ L "};" ++ [nl] ++
  L "comms::util::assign(Base::value(), std::begin(Data), std::end(Data));" ++ [nl].
Definition data_init (s : data_state) : res str :=
  if is_nil (d_default s) then Ok []
  else b <- bytes_str (d_default s) ;; genProcessTemplate data_init_templ [(L "BYTES", b)] false.

(** ** Valid values *)
Definition vv_exists {A} (ge : gen_env) (v : valid_value A) : bool := genDoesElementExist (ge_ver ge) (vv_since v) (vv_depr v) true.
(** CommsStringField.cpp 297-330 commsDefValidFuncBodyImpl *)
Definition string_valid_templ : str :=
  L "if (!Base::valid()) {" ++ [nl] ++ L "    return false;" ++ [nl] ++ L "}" ++ [nl; nl] ++
  L "static const typename Base::ValueType Map[] = {" ++ [nl] ++ L "    #^#VALUES#$#" ++ [nl] ++ L "};" ++ [nl; nl] ++
  L "auto iter = std::lower_bound(std::begin(Map), std::end(Map), Base::getValue());" ++ [nl] ++
  L "return (iter != std::end(Map)) && ((*iter) == Base::getValue());" ++ [nl].
Definition string_valid_body (ge : gen_env) (s : string_state) : res str :=
  if is_nil (st_valid s) then Ok []
  else
    let values := map (fun v => quote ++ vv_value v ++ quote) (filter (vv_exists ge) (st_valid s)) in
    genProcessTemplate string_valid_templ [(L "VALUES", genStrListToString values (L "," ++ [nl]) [])] false.

(** CommsDataField.cpp 322-382 commsDefValidFuncBodyImpl; [i]: the index of the first one *)
Definition data_def_templ : str :=
  L "static const std::uint8_t #^#NAME#$#[] = {" ++ [nl] ++ L "    #^#BYTES#$#" ++ [nl] ++ L "};" ++ [nl].
Definition array_name (i : nat) : str := L "ValidValue" ++ dec_str (Z.of_nat i).
Fixpoint data_defs (ge : gen_env) (i : nat) (l : list (valid_value (list Z))) : res (list (str * str)) :=
  match l with
  | [] => Ok []
  | v :: l' =>
      if vv_exists ge v then
        b <- bytes_str (vv_value v) ;;
        d <- genProcessTemplate data_def_templ [(L "NAME", array_name i); (L "BYTES", b)] false ;;
        rest <- data_defs ge (S i) l' ;;
        Ok ((d, L "MapElem(std::begin(" ++ array_name i ++ L "), std::end(" ++ array_name i ++ L "))") :: rest)
      else data_defs ge (S i) l'
  end.
Definition data_valid_templ : str :=
  L "if (!Base::valid()) {" ++ [nl] ++ L "    return false;" ++ [nl] ++ L "}" ++ [nl; nl] ++
  L "#^#DEFS#$#" ++ [nl] ++
  L "using MapElem = comms::util::ArrayView<std::uint8_t>;" ++ [nl] ++
  L "static const MapElem Map[] = {" ++ [nl] ++ L "    #^#VALUES#$#" ++ [nl] ++ L "};" ++ [nl; nl] ++
  L "auto& val = Base::getValue();" ++ [nl] ++ L "auto iter =" ++ [nl] ++ L "    std::lower_bound(" ++ [nl] ++
  L "        std::begin(Map), std::end(Map), val," ++ [nl] ++
  L "        [](const MapElem& first, const typename Base::ValueType& second)" ++ [nl] ++ L "        {" ++ [nl] ++
  L "            return std::lexicographical_compare(first.begin(), first.end(), second.begin(), second.end());" ++ [nl] ++
  L "        });" ++ [nl; nl] ++
  L "if ((iter == std::end(Map)) || (iter->size() != val.size())) {" ++ [nl] ++ L "    return false;" ++ [nl] ++ L "}" ++ [nl; nl] ++
  L "return std::equal(val.begin(), val.end(), iter->begin());" ++ [nl].
Definition data_valid_body (ge : gen_env) (s : data_state) : res str :=
  if is_nil (d_valid s) then Ok []
  else
    ds <- data_defs ge 0 (d_valid s) ;;
    genProcessTemplate data_valid_templ
      [(L "DEFS", genStrListToString (map fst ds) [nl] []); (L "VALUES", genStrListToString (map snd ds) (L "," ++ [nl]) [])] false.
