(** Model of the code generated for strings, data and lists whose length, count or element
    length is the value of another field: app/commsdsl2comms/src/CommsStringField.cpp 180-292,
    CommsDataField.cpp 205-317, CommsListField.cpp 235-458.  (A list with a detached termination
    field makes the generator fail, CommsListField.cpp, and is not modelled.) *)
From Verif.Model Require Import Base Common Units Field GenUtil GenComms CommsInt CommsCond.

(** CommsField.cpp 289-296 commsFieldAccessStr.  Without a dot the text would be resized to
    std::string::npos. *)
Definition field_access (ge : gen_env) (up : list velem) (f : field) (acc prefix : str) : res str :=
  match split_last_dot (value_access ge up f acc prefix) with Some (a, _) => Ok a | None => UB end.
(** CommsStringField.cpp 188-207: the sibling named in front of the first dot and what follows *)
Definition prefix_sibling (sibs : list field) (name : str) : option (field * str) :=
  let (first, rest) := first_seg name in
  option_map (fun g => (g, rest_or_nil rest)) (find_named first sibs).
(** CommsStringField.cpp 209-210 *)
Definition access_prefix (f : field) : str := L "field_" ++ genAccessName (f_name f) ++ L "()".

(** CommsStringField.cpp 224-237, CommsListField.cpp 282-301 (the replaced keys are called
    STR_FIELD, DATA_FIELD or LIST_FIELD and LEN_VALUE or ACC_VALUE, the function is part of
    the template of strings and data) *)
Definition prepare_templ : str :=
  L "#^#SEQ_FIELD#$#.#^#FUNC#$#(" ++ [nl] ++
  L "    static_cast<std::size_t>(#^#ACC_VALUE#$#));" ++ [nl].
Definition prepare_cond_templ : str :=
  L "if (#^#COND#$#) {" ++ [nl] ++
  L "    #^#SEQ_FIELD#$#.#^#FUNC#$#(" ++ [nl] ++
  L "        static_cast<std::size_t>(#^#ACC_VALUE#$#));" ++ [nl] ++
  L "}".
(** CommsStringField.cpp 180-238, CommsDataField.cpp 205-264, CommsListField.cpp 239-302.
    Nothing without a name or without such a sibling. *)
Definition prepare_one (ge : gen_env) (up : list velem) (sibs : list field) (f : field) (name func : str) : res (list str) :=
  if is_nil name then Ok []
  else match prefix_sibling sibs name with
       | None => Ok []
       | Some (g, rest) =>
           let conds := opt_checks ge up f [] (access_prefix f) ++ opt_checks ge up g rest (access_prefix g) in
           x <- field_access ge up f [] (access_prefix f) ;;
           let repl := [(L "SEQ_FIELD", x); (L "FUNC", func); (L "ACC_VALUE", value_access ge up g rest (access_prefix g))] in
           t <- (if is_nil conds then genProcessTemplate prepare_templ repl false
                 else genProcessTemplate prepare_cond_templ ((L "COND", genStrListToString conds and_nl []) :: repl) false) ;;
           Ok [t]
       end.
(** commsDefBundledReadPrepareFuncBodyImpl: CommsStringField.cpp 180-238, CommsDataField.cpp
    205-264, CommsListField.cpp 304-332; other kinds of fields: see the comment on the top *)
Definition prepare_body (ge : gen_env) (up : list velem) (sibs : list field) (f : field) : res str :=
  match f with
  | FString _ s _ => l <- prepare_one ge up sibs f (st_detached s) (L "forceReadLength") ;; Ok (concat l)
  | FData _ s _ => l <- prepare_one ge up sibs f (d_detached s) (L "forceReadLength") ;; Ok (concat l)
  | FList _ s _ _ _ _ _ =>
      a <- prepare_one ge up sibs f (l_detCount s) (L "forceReadElemCount") ;;
      b <- prepare_one ge up sibs f (l_detLength s) (L "forceReadLength") ;;
      c <- prepare_one ge up sibs f (l_detElemLength s) (L "forceReadElemLength") ;;
      Ok (genStrListToString (a ++ b ++ c) [nl] [])
  | _ => Ok []
  end.

(** CommsStringField.cpp 267-281, CommsDataField.cpp 292-306 *)
Definition refresh_templ : str :=
  L "auto lenValue = #^#LEN_VALUE#$#;" ++ [nl] ++
  L "auto realLength = #^#SEQ_FIELD#$#.value().size();" ++ [nl] ++
  L "if (static_cast<std::size_t>(lenValue) == realLength) {" ++ [nl] ++
  L "    return false;" ++ [nl] ++
  L "}" ++ [nl] ++ [nl] ++
  L "using LenValueType = typename std::decay<decltype(lenValue)>::type;" ++ [nl] ++
  L "static const auto MaxLenValue = static_cast<std::size_t>(std::numeric_limits<LenValueType>::max());" ++ [nl] ++
  L "auto maxAllowedLen = std::min(MaxLenValue, realLength);" ++ [nl] ++
  L "#^#LEN_FIELD#$#.setValue(maxAllowedLen);" ++ [nl] ++
  L "if (maxAllowedLen < realLength) {" ++ [nl] ++
  L "    #^#SEQ_FIELD#$#.value().resize(maxAllowedLen);" ++ [nl] ++
  L "}" ++ [nl] ++
  L "return true;".
(** CommsStringField.cpp 240-292, CommsDataField.cpp 267-317 *)
Definition refresh_seq (ge : gen_env) (up : list velem) (sibs : list field) (f : field) (name : str) : res str :=
  if is_nil name then Ok []
  else match prefix_sibling sibs name with
       | None => Ok []
       | Some (g, rest) =>
           a <- field_access ge up g rest (access_prefix g) ;;
           x <- field_access ge up f [] (access_prefix f) ;;
           genProcessTemplate refresh_templ
             [(L "LEN_VALUE", value_access ge up g rest (access_prefix g)); (L "LEN_FIELD", a); (L "SEQ_FIELD", x)] false
       end.

(** CommsListField.cpp 366-380 *)
Definition refresh_block_templ : str :=
  L "do {" ++ [nl] ++
  L "    auto expectedValue = static_cast<std::size_t>(#^#ACC_VALUE#$#);" ++ [nl] ++
  L "    #^#REAL_VALUE#$#" ++ [nl] ++
  L "    if (expectedValue == realValue) {" ++ [nl] ++
  L "        break;" ++ [nl] ++
  L "    }" ++ [nl] ++ [nl] ++
  L "    using PrefixValueType = typename std::decay<decltype(#^#ACC_VALUE#$#)>::type;" ++ [nl] ++
  L "    static const auto MaxPrefixValue = static_cast<std::size_t>(std::numeric_limits<PrefixValueType>::max());" ++ [nl] ++
  L "    auto maxAllowedValue = std::min(MaxPrefixValue, realValue);" ++ [nl] ++
  L "    #^#ADJUST_LIST#$#" ++ [nl] ++
  L "    #^#ACC_FIELD#$#.setValue(#^#PREFIX_VALUE#$#);" ++ [nl] ++
  L "    updated = true;" ++ [nl] ++
  L "} while (false);" ++ [nl].
(** What differs between the three prefixes, CommsListField.cpp 397-444: the real value, the
    adjustment of the list and the value the prefix gets. *)
Inductive prefix_kind := PCount | PLength | PElemLength.
Definition real_templ (k : prefix_kind) : str :=
  match k with
  | PCount => L "auto realValue = #^#LIST_FIELD#$#.value().size();"
  | PLength => L "auto realValue = #^#LIST_FIELD#$#.length();"
  | PElemLength =>
      L "std::size_t realValue =" ++ [nl] ++
      L "    #^#LIST_FIELD#$#.value().empty() ?" ++ [nl] ++
      L "        0U : #^#LIST_FIELD#$#.value()[0].length();"
  end.
Definition adjust_templ (k : prefix_kind) : str :=
  match k with
  | PCount =>
      L "if (maxAllowedValue < realValue) {" ++ [nl] ++
      L "    #^#LIST_FIELD#$#.value().resize(maxAllowedValue);" ++ [nl] ++
      L "}"
  | PLength =>
      L "while (maxAllowedValue < realValue) {" ++ [nl] ++
      L "    auto elemLen = #^#LIST_FIELD#$#.value().back().length();" ++ [nl] ++
      L "    #^#LIST_FIELD#$#.value().pop_back();" ++ [nl] ++
      L "    realValue -= elemLen;" ++
      L "}"
  | PElemLength =>
      L "COMMS_ASSERT(" ++ [nl] ++
      L "    (#^#LIST_FIELD#$#.value().empty()) ||" ++ [nl] ++
      L "    (#^#LIST_FIELD#$#.value()[0].length() < maxAllowedValue));"
  end.
Definition prefix_value (k : prefix_kind) : str :=
  match k with PLength => L "realValue" | _ => L "maxAllowedValue" end.
(** CommsListField.cpp 339-388 and 397-444 for one prefix *)
Definition refresh_one (ge : gen_env) (up : list velem) (sibs : list field) (x : str) (name : str) (k : prefix_kind) : res (list str) :=
  if is_nil name then Ok []
  else
    real <- genProcessTemplate (real_templ k) [(L "LIST_FIELD", x)] false ;;
    adjust <- genProcessTemplate (adjust_templ k) [(L "LIST_FIELD", x)] false ;;
    match prefix_sibling sibs name with
    | None => Ok []
    | Some (g, rest) =>
        a <- field_access ge up g rest (access_prefix g) ;;
        t <- genProcessTemplate refresh_block_templ
               [(L "ACC_VALUE", value_access ge up g rest (access_prefix g)); (L "ACC_FIELD", a);
                (L "REAL_VALUE", real); (L "ADJUST_LIST", adjust); (L "PREFIX_VALUE", prefix_value k)] false ;;
        Ok [t]
    end.
(** CommsListField.cpp 450-457 *)
Definition refresh_list_templ : str :=
  L "bool updated = false;" ++ [nl] ++
  L "#^#UPDATES#$#" ++ [nl] ++
  L "return updated;" ++ [nl].
(** CommsListField.cpp 334-458 *)
Definition refresh_list (ge : gen_env) (up : list velem) (sibs : list field) (f : field) (s : list_state) : res str :=
  x <- field_access ge up f [] (access_prefix f) ;;
  a <- refresh_one ge up sibs x (l_detCount s) PCount ;;
  b <- refresh_one ge up sibs x (l_detLength s) PLength ;;
  c <- refresh_one ge up sibs x (l_detElemLength s) PElemLength ;;
  let l := a ++ b ++ c in
  if is_nil l then Ok []
  else genProcessTemplate refresh_list_templ [(L "UPDATES", genStrListToString l [nl] [])] false.
(** commsDefBundledRefreshFuncBodyImpl of the three kinds *)
Definition refresh_body (ge : gen_env) (up : list velem) (sibs : list field) (f : field) : res str :=
  match f with
  | FString _ s _ => refresh_seq ge up sibs f (st_detached s)
  | FData _ s _ => refresh_seq ge up sibs f (d_detached s)
  | FList _ s _ _ _ _ _ => refresh_list ge up sibs f s
  | _ => Ok []
  end.
