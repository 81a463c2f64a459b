(** Model of the generated definition of enum fields:
    app/commsdsl2comms/src/CommsEnumField.cpp and lib/src/gen/GenEnumField.cpp.
    The code for an enum whose values are those of the generated MsgId
    (commsNamespaceForMsgId, CommsEnumField.cpp 1375-1418) is not modelled. *)
From Verif.Model Require Import Base Common Xml Units Field FieldCommon IntField GenUtil GenComms CommsInt.

(** ** Values, GenEnumField.cpp *)
(** m_revValues of ParseEnumFieldImpl.h: a std::multimap from the number to the name;
    equal numbers in the order of insertion *)
Definition rev_ltb (a b : Z * str) : bool := fst a <? fst b.
Definition rev_values (s : enum_state) : list (Z * str) :=
  isort rev_ltb (map (fun x => (v_value (snd x), fst x)) (en_values s)).
(** 85-104 genPrepare: sorted again as unsigned numbers. std::sort may exchange
    equal numbers; the model keeps their order. *)
Definition urev_ltb (a b : Z * str) : bool := to_u64 (fst a) <? to_u64 (fst b).
Definition sorted_rev (s : enum_state) : list (Z * str) :=
  if is_big (en_type s) then isort urev_ltb (rev_values s) else rev_values s.
(** 106-113 *)
Definition hex_width (s : enum_state) : Z := if en_hexAssign s then en_length s * 2 else 0.
(** 132-141 genValueToString *)
Definition value_to_string (s : enum_state) (v : Z) : res str :=
  if is_big (en_type s) || (0 <? hex_width s) then Ok (genNumToStringU (to_u64 v) (hex_width s))
  else genNumToStringS v.
(** 159-174 genAdjustFirstLetterInName: [first] is the name of the first value *)
Definition adjust_first (first name : str) : str :=
  match first, name with
  | f :: _, c :: r => if ch_eqb (tolower f) f then tolower c :: r else name
  | _, _ => name
  end.
(** 115-130 genAdjustName: the loop; a name is free after at most as many steps as there are values *)
Fixpoint free_name (n : nat) (values : list (str * named_val)) (name : str) : res str :=
  if has_key name values then
    match n with O => UB | S n' => free_name n' values (name ++ L "_") end
  else Ok name.
Definition genAdjustName (s : enum_state) (name : str) : res str :=
  match sorted_rev s with
  | [] => UB
  | (_, first) :: _ => free_name (length (en_values s)) (en_values s) (adjust_first first name)
  end.
(** 143-151 genHasValuesLimit; genMaxTypeValueInternal (38-63) is max_type_value as intmax_t *)
Definition has_limit (s : enum_state) (lst : Z) : bool :=
  uns (is_big (en_type s)) lst <? uns (is_big (en_type s)) (max_type_value (en_type s)).

(** ** Enumerators, CommsEnumField.cpp *)
(** 86-115: the comment behind the value *)
Definition value_doc (ge : gen_env) (c : common) (name : str) (v : named_val) : res str :=
  d <- (if negb (is_nil (v_description v)) then genStrMakeMultiline (L " ///< " ++ v_description v) 40 true
        else if match c_sem c with SemMessageId => true | _ => false end then
          Ok (if negb (is_nil (v_displayName v)) then L " ///< message id of <b>" ++ v_displayName v ++ L "</b> message."
              else L " ///< message id of @b " ++ name ++ L " message.")
        else Ok (if negb (is_nil (v_displayName v)) then L " ///< value <b>" ++ v_displayName v ++ L "</b>."
                 else L " ///< value @b " ++ name ++ L ".")) ;;
  let d := if genIsElementDeprecated (ge_ver ge) (v_depr v)
           then d ++ [nl] ++ L "Deprecated since version " ++ dec_str (v_depr v) ++ L "." else d in
  genStrReplace d [nl] ([nl] ++ L " ///  ").
(** 82-130: "NAME = VALUE," with the comment, which is put in front of the last
    character (a blank) of the processed template *)
Definition value_templ : str := L "#^#NAME#$# = #^#VALUE#$#, ".
Definition value_line (name value doc : str) : res str :=
  t <- genProcessTemplate value_templ [(L "NAME", name); (L "VALUE", value)] false ;;
  genProcessTemplate (removelast t ++ L "#^#DOC#$#" ++ [last t " "%char]) [(L "DOC", doc)] false.
(** 65-131: the loop over the values *)
Definition value_lines (ge : gen_env) (c : common) (s : enum_state) : res (list str) :=
  ls <- mapM (fun r : Z * str =>
          match assoc (snd r) (en_values s) with
          | None => Ok []
          | Some v =>
              if negb (genDoesElementExist (ge_ver ge) (v_since v) (v_depr v) false) then Ok []
              else t <- value_to_string s (fst r) ;;
                   d <- value_doc ge c (snd r) v ;;
                   line <- value_line (snd r) t d ;;
                   Ok [line]
          end) (sorted_rev s) ;;
  Ok (concat ls).
(** 133-149: createValueStrFunc and the extra values *)
Definition extra_line (s : enum_state) (name : str) (v : Z) (doc : str) : res str :=
  n <- genAdjustName s name ;; t <- value_to_string s v ;; Ok (n ++ L " = " ++ t ++ L ", ///< " ++ doc).
Definition extra_lines (s : enum_state) : res (list str) :=
  match sorted_rev s with
  | [] => Ok []
  | (first, _) :: _ =>
      let lst := fst (last (sorted_rev s) (0, [])) in
      a <- extra_line s (L "FirstValue") first (L "First defined value.") ;;
      b <- extra_line s (L "LastValue") lst (L "Last defined value.") ;;
      c <- (if has_limit s lst
            then n <- s64 (lst + 1) ;; x <- extra_line s (L "ValuesLimit") n (L "Upper limit for defined values.") ;; Ok [x]
            else Ok []) ;;
      Ok ([[nl] ++ L "// --- Extra values generated for convenience ---"; a; b] ++ c)
  end.
(** 55-152 commsEnumValues; m_validRanges is not empty (commsPrepareValidRangesInternal) *)
Definition enum_values (ge : gen_env) (c : common) (s : enum_state) : res (list str) :=
  a <- value_lines ge c s ;; b <- extra_lines s ;; Ok (a ++ b).
(** 684-724 commsCommonEnumInternal; [scope] is the result of genScopeFor *)
Definition enum_templ : str :=
  L "/// @brief Values enumerator for" ++ [nl] ++ L "///     @ref #^#SCOPE#$# field." ++ [nl] ++
  L "enum class ValueType : #^#TYPE#$#" ++ [nl] ++ L "{" ++ [nl] ++ L "    #^#VALUES#$#" ++ [nl] ++ L "};" ++ [nl].
Definition enum_def (ge : gen_env) (scope : str) (c : common) (s : enum_state) : res str :=
  vs <- enum_values ge c s ;;
  genProcessTemplate enum_templ [(L "SCOPE", scope); (L "TYPE", genCppIntTypeFor (en_type s) (en_length s));
                                 (L "VALUES", genStrListToString vs [nl] [])] false.

(** ** Valid values *)
(** 303-306, 580-582 *)
Definition en_check (ge : gen_env) (s : enum_state) : bool := ge_versionDependent ge && en_validCheckVersion s.
(** 584-603: one range per value which exists *)
Definition value_ranges (ge : gen_env) (s : enum_state) : list vrange :=
  map (fun x => mkRange (v_value (snd x)) (v_value (snd x)) (v_since (snd x)) (v_depr (snd x)))
    (filter (fun x => genDoesElementExist (ge_ver ge) (v_since (snd x)) (v_depr (snd x)) (negb (en_check ge s))) (en_values s)).
(** 619-641: the order. The values are taken from a std::map sorted by name; equal
    ones are merged below, so their order has no effect. *)
Definition vr_ltb (big check : bool) (a b : vrange) : bool :=
  if check && negb (r_since a =? r_since b) then r_since a <? r_since b
  else if check && negb (r_depr a =? r_depr b) then r_depr a <? r_depr b
  else uns big (r_min a) <? uns big (r_min b).
(** 643-686: [a] takes up what follows until there is a gap; the marks m_deprecatedSince == 0
    (no value is deprecated in version 0) leave out what has been taken up. "m_max + 1"
    is only evaluated if it does not overflow. *)
Definition gap (big : bool) (a b : vrange) : bool :=
  (uns big (r_max a) <? uns big (if big then -1 else int_max)) && (uns big (r_max a) + 1 <? uns big (r_min b)).
Definition take_up (big : bool) (a b : vrange) : vrange :=
  mkRange (r_min a) (if uns big (r_max a) <? uns big (r_max b) then r_max b else r_max a) (r_since a) (r_depr a).
Fixpoint merge_from (big check : bool) (a : vrange) (l : list vrange) : list vrange :=
  match l with
  | [] => [a]
  | b :: l' =>
      if (check && negb ((r_since a =? r_since b) && (r_depr a =? r_depr b))) || gap big a b
      then a :: merge_from big check b l'
      else merge_from big check (take_up big a b) l'
  end.
(** 576-698 commsPrepareValidRangesInternal: m_validRanges *)
Definition enum_ranges (ge : gen_env) (s : enum_state) : res (list vrange) :=
  match isort (vr_ltb (is_big (en_type s)) (en_check ge s)) (value_ranges ge s) with
  | [] => Err
  | a :: l => Ok (merge_from (is_big (en_type s)) (en_check ge s) a l)
  end.
Definition max_ranges_in_opts : nat := 5.

(** ** Options *)
(** 1171-1197 commsAddDefaultValueOptInternal *)
Definition en_default_opts (s : enum_state) : res (list str) :=
  if en_default s =? 0 then Ok []
  else if (en_default s <? 0) && is_big (en_type s) then
    Ok [copt (L "DefaultBigUnsignedNumValue<" ++ genNumToStringU (to_u64 (en_default s)) 0 ++ L ">")]
  else t <- genNumToStringS (en_default s) ;; Ok [copt (L "DefaultNumValue<" ++ t ++ L ">")].
(** 1199-1252 commsAddLengthOptInternal; parseMinLength and parseBitLength are
    ParseEnumFieldImpl.cpp 134-154 *)
Definition en_length_opts (c : common) (s : enum_state) : list str :=
  let minLength := if is_var (en_type s) then 1 else en_length s in
  let bits := if c_inBitfield c then en_bitLength s else 0 in
  if is_var (en_type s) then [copt (L "VarLength<" ++ genNumToStringU minLength 0 ++ L ", " ++ genNumToStringU (en_length s) 0 ++ L ">")]
  else if negb (bits =? 0) then [copt (L "FixedBitLength<" ++ genNumToStringU bits 0 ++ L ">")]
  else if negb (type_length (en_type s) =? minLength) then [copt (L "FixedLength<" ++ genNumToStringU minLength 0 ++ L ">")]
  else [].
(** 1258-1261 bigUnsigned of the options *)
Definition en_opt_big (s : enum_state) : bool :=
  match en_type s with Uint64 => true | Uintvar => false | _ => 8 <=? en_length s end.
(** valid in every version *)
Definition uncond (r : vrange) : bool := (r_since r =? 0) && (r_depr r =? not_deprecated).
Fixpoint drop_while {A} (p : A -> bool) (l : list A) : list A :=
  match l with [] => [] | x :: l' => if p x then drop_while p l' else l end.
Fixpoint take_while {A} (p : A -> bool) (l : list A) : list A :=
  match l with [] => [] | x :: l' => if p x then x :: take_while p l' else [] end.
(** 1254-1364 commsAddValidRangesOptInternal *)
Definition en_ranges_opts (ge : gen_env) (s : enum_state) : res (list str) :=
  rs <- enum_ranges ge s ;;
  if negb (en_check ge s) then
    if Nat.ltb max_ranges_in_opts (length rs) then Ok [] else mapM (range_opt (en_opt_big s)) rs
  else
    match take_while uncond (drop_while (fun r => negb (uncond r)) rs) with
    | [] => Ok [copt (L "VersionStorage"); copt (L "InvalidByDefault")]
    | us =>
        o <- mapM (range_opt (en_opt_big s)) us ;;
        Ok ((if Nat.eqb (length us) (length rs) then [] else [copt (L "VersionStorage")]) ++ o)
    end.
(** 1079-1090 commsDefFieldOptsInternal *)
Definition enum_def_opts (ge : gen_env) (x : field_settings) (c : common) (s : enum_state) : res (list str) :=
  d <- en_default_opts s ;;
  r <- en_ranges_opts ge s ;;
  Ok (add_if (en_availableLengthLimit s) (copt (L "AvailableLengthLimit")) (comms_def_options x c ++ d ++ en_length_opts c s ++ r)).

(** ** valid(), 300-476 commsDefValidFuncBodyImpl *)
(** 330-342: the names in the array, one per number; "prefix" is "ValueType::" *)
Fixpoint array_values (prev : option Z) (l : list (Z * str)) : list str :=
  match l with
  | [] => []
  | (v, n) :: l' =>
      if match prev with Some p => p =? v | None => false end then array_values prev l'
      else (L "ValueType::" ++ n) :: array_values (Some v) l'
  end.
Definition array_templ : str :=
  L "if (!Base::valid()) {" ++ [nl] ++ L "    return false;" ++ [nl] ++ L "}" ++ [nl; nl] ++
  L "static const ValueType Values[] = {" ++ [nl] ++ L "    #^#VALUES#$#" ++ [nl] ++ L "};" ++ [nl; nl] ++
  L "auto iter =" ++ [nl] ++ L "    std::lower_bound(std::begin(Values), std::end(Values), Base::getValue());" ++ [nl; nl] ++
  L "if ((iter == std::end(Values)) || (*iter != Base::getValue())) {" ++ [nl] ++ L "    return false;" ++ [nl] ++ L "}" ++ [nl; nl] ++
  L "return true;" ++ [nl].
(** 353-367: neighbours with the same versions are grouped *)
Definition same_vers (a b : vrange) : bool := (r_since a =? r_since b) && (r_depr a =? r_depr b).
Definition add_group (groups : list (list vrange)) (r : vrange) : list (list vrange) :=
  match rev groups with
  | (x :: g) :: _ => if same_vers (last (x :: g) x) r then removelast groups ++ [(x :: g) ++ [r]] else groups ++ [[r]]
  | _ => groups ++ [[r]]
  end.
Definition version_groups (rs : list vrange) : list (list vrange) :=
  fold_left add_group (filter (fun r => negb (uncond r)) rs) [].
(** 399-446: the text for one range *)
Definition both_templ : str :=
  L "if ((static_cast<typename Base::ValueType>(#^#MIN_VALUE#$#) <= Base::getValue()) &&" ++ [nl] ++
  L "    (Base::getValue() <= static_cast<typename Base::ValueType>(#^#MAX_VALUE#$#))) {" ++ [nl] ++
  L "    return true;" ++ [nl] ++ L "}".
Definition single_templ : str :=
  L "if (Base::getValue() == static_cast<typename Base::ValueType>(#^#MIN_VALUE#$#)) {" ++ [nl] ++
  L "    return true;" ++ [nl] ++ L "}".
Definition comparison (big : bool) (r : vrange) : res str :=
  '(lo, hi) <- (if big then Ok (genNumToStringU (to_u64 (r_min r)) 0, genNumToStringU (to_u64 (r_max r)) 0)
                else a <- genNumToStringS (r_min r) ;; b <- genNumToStringS (r_max r) ;; Ok (a, b)) ;;
  genProcessTemplate (if r_min r =? r_max r then single_templ else both_templ)
    [(L "MIN_VALUE", lo); (L "MAX_VALUE", hi)] false.
(** 369-385, 389-398, 448-453: the text for the ranges of the same versions *)
Definition version_both_templ : str :=
  L "if ((#^#FROM_VERSION#$# <= Base::getVersion()) &&" ++ [nl] ++
  L "    (Base::getVersion() < #^#UNTIL_VERSION#$#)) {" ++ [nl] ++ L "    #^#COMPARISONS#$#" ++ [nl] ++ L "}" ++ [nl].
Definition version_from_templ : str :=
  L "if (#^#FROM_VERSION#$# <= Base::getVersion()) {" ++ [nl] ++ L "    #^#COMPARISONS#$#" ++ [nl] ++ L "}" ++ [nl].
Definition version_until_templ : str :=
  L "if (Base::getVersion() < #^#UNTIL_VERSION#$#) {" ++ [nl] ++ L "    #^#COMPARISONS#$#" ++ [nl] ++ L "}" ++ [nl].
Definition group_text (big : bool) (g : list vrange) : res str :=
  match g with
  | [] => UB
  | r :: _ =>
      cs <- mapM (comparison big) g ;;
      genProcessTemplate
        (if r_since r =? 0 then version_until_templ
         else if not_deprecated <=? r_depr r then version_from_templ else version_both_templ)
        [(L "COMPARISONS", genStrListToString cs [nl; nl] []); (L "FROM_VERSION", genNumToStringU (r_since r) 0);
         (L "UNTIL_VERSION", genNumToStringU (r_depr r) 0)] false
  end.
Definition groups_templ : str :=
  L "if (Base::valid()) {" ++ [nl] ++ L "    return true;" ++ [nl] ++ L "}" ++ [nl; nl] ++
  L "#^#CONDITIONS#$#" ++ [nl] ++ L "return false;" ++ [nl].
Definition enum_valid_body (ge : gen_env) (s : enum_state) : res str :=
  rs <- enum_ranges ge s ;;
  if negb (en_check ge s) then
    if Nat.leb (length rs) max_ranges_in_opts then Ok []
    else genProcessTemplate array_templ [(L "VALUES", genStrListToString (array_values None (rev_values s)) (L "," ++ [nl]) [])] false
  else
    gs <- mapM (group_text (is_big (en_type s))) (version_groups rs) ;;
    genProcessTemplate groups_templ [(L "CONDITIONS", genStrListToString gs [nl] [])] false.

(** ** Names of the values *)
(** 700-719 commsIsDirectValueNameMappingInternal; the product cannot overflow for a
    number of values that fits into memory *)
Definition direct_mapping (s : enum_state) : bool :=
  match rev_values s with
  | [] => true
  | (first, _) :: _ =>
      let lst := fst (last (rev_values s) (0, [])) in
      if first <? 0 then false
      else negb ((Z.of_nat (length (rev_values s)) * 110 / 100 <=? lst) && (10 <=? lst))
  end.
(** ParseEnumFieldImpl.cpp 50-71 parseIsUnique *)
Fixpoint is_unique (l : list (Z * str)) : bool :=
  match l with
  | a :: (b :: _) as l' => if fst a =? fst b then false else is_unique l'
  | _ => true
  end.
(** 862-877: the first of the values with this number which is not deprecated *)
Fixpoint not_deprecated_name (ver : Z) (values : list (str * named_val)) (v : Z) (l : list (Z * str)) : option (str * named_val) :=
  match l with
  | [] => None
  | (w, n) :: l' =>
      match (if w =? v then assoc n values else None) with
      | Some x => if ver <? v_depr x then Some (n, x) else not_deprecated_name ver values v l'
      | None => not_deprecated_name ver values v l'
      end
  end.
(** 836-879: the quoted text for the number [v] whose first name is [n] *)
Definition quoted (s : str) : str := L """" ++ s ++ L """".
Definition shown_name (ge : gen_env) (s : enum_state) (v : Z) (n : str) : res str :=
  match assoc n (en_values s) with
  | None => UB
  | Some x =>
      let text (y : str * named_val) := quoted (genDisplayName (v_displayName (snd y)) (fst y)) in
      if negb (en_nonUnique s) || (genSchemaVersion (ge_ver ge) <? v_depr x) || is_unique (rev_values s) then Ok (text (n, x))
      else match not_deprecated_name (genSchemaVersion (ge_ver ge)) (en_values s) v (rev_values s) with
           | Some y => Ok (text y)
           | None => Ok (text (n, x))
           end
  end.
(** 815-893 commsCommonValueNamesMapDirectBodyInternal: the elements of the array *)
Fixpoint direct_names (ge : gen_env) (s : enum_state) (next : Z) (l : list (Z * str)) : res (list str) :=
  match l with
  | [] => Ok []
  | (v, n) :: l' =>
      if v <? next then direct_names ge s next l'
      else t <- shown_name ge s v n ;;
           rest <- direct_names ge s (v + 1) l' ;;
           Ok (repeat (L "nullptr") (Z.to_nat (v - next)) ++ t :: rest)
  end.
(** 923-1003, 1005-1077: the pairs of the other array; the first number is never left out *)
Fixpoint pair_names (ge : gen_env) (s : enum_state) (prev : option Z) (l : list (Z * str)) : res (list str) :=
  match l with
  | [] => Ok []
  | (v, n) :: l' =>
      if match prev with Some p => p =? v | None => false end then pair_names ge s prev l'
      else t <- shown_name ge s v n ;;
           rest <- pair_names ge s (Some v) l' ;;
           Ok ((L "std::make_pair(ValueType::" ++ n ++ L ", " ++ t ++ L ")") :: rest)
  end.
(** 895-921 commsCommonValueNamesMapBinSearchBodyInternal: the order *)
Definition pairs_big (s : enum_state) : bool :=
  match en_type s with Uint64 => true | Uintvar => 8 <=? en_length s | _ => false end.
Definition pair_order (s : enum_state) : list (Z * str) :=
  if pairs_big s then isort urev_ltb (rev_values s) else rev_values s.
Definition direct_templ : str :=
  L "static const char* Map[] = {" ++ [nl] ++ L "    #^#NAMES#$#" ++ [nl] ++ L "};" ++ [nl] ++
  L "static const std::size_t MapSize = std::extent<decltype(Map)>::value;" ++ [nl; nl] ++
  L "return std::make_pair(&Map[0], MapSize);".
Definition pairs_templ : str :=
  L "static const ValueNameInfo Map[] = {" ++ [nl] ++ L "    #^#NAMES#$#" ++ [nl] ++ L "};" ++ [nl] ++
  L "static const std::size_t MapSize = std::extent<decltype(Map)>::value;" ++ [nl; nl] ++
  L "return std::make_pair(&Map[0], MapSize);".
(** 794-813 commsCommonValueNamesMapFuncCodeInternal: the body of valueNamesMap() *)
Definition names_map_body (ge : gen_env) (s : enum_state) : res str :=
  if direct_mapping s then
    l <- direct_names ge s 0 (rev_values s) ;;
    genProcessTemplate direct_templ [(L "NAMES", genStrListToString l (L "," ++ [nl]) [])] false
  else
    l <- pair_names ge s None (pair_order s) ;;
    genProcessTemplate pairs_templ [(L "NAMES", genStrListToString l (L "," ++ [nl]) [])] false.
(** 766-792: the body of valueName() *)
Definition value_name_body (s : enum_state) : str :=
  if direct_mapping s then
    L "auto namesMapInfo = valueNamesMap();" ++ [nl] ++ L "if (namesMapInfo.second <= static_cast<std::size_t>(val)) {" ++ [nl] ++
    L "    return nullptr;" ++ [nl] ++ L "}" ++ [nl; nl] ++ L "return namesMapInfo.first[static_cast<std::size_t>(val)];"
  else
    L "auto namesMapInfo = valueNamesMap();" ++ [nl] ++ L "auto begIter = namesMapInfo.first;" ++ [nl] ++
    L "auto endIter = begIter + namesMapInfo.second;" ++ [nl] ++ L "auto iter = std::lower_bound(" ++ [nl] ++
    L "    begIter, endIter, val," ++ [nl] ++ L "    [](const ValueNameInfo& info, ValueType v) -> bool" ++ [nl] ++
    L "    {" ++ [nl] ++ L "        return info.first < v;" ++ [nl] ++ L "    });" ++ [nl; nl] ++
    L "if ((iter == endIter) || (iter->first != val)) {" ++ [nl] ++ L "    return nullptr;" ++ [nl] ++ L "}" ++ [nl; nl] ++ L "return iter->second;".
