(** Model of the parsed field objects (lib/src/parse/Parse*FieldImpl.h): their
    state after parsing, and the read-only member functions on them. *)
From Verif.Model Require Import Base Common Xml Units.
From Coq Require Export SpecFloat.

(** ** State records *)

(** ParseField.h ParseSemanticType; ParseFieldImpl.cpp 1261-1266 *)
Inductive sem_type := SemNone | SemVersion | SemMessageId | SemLength.
(** ParseOverrideType *)
Inductive override := OvrAny | OvrReplace | OvrExtend | OvrNone.
(** ParseField::Kind in the order of ParseFieldImpl.cpp 177-190 *)
Inductive kind := KInt | KEnum | KSet | KFloat | KBitfield | KBundle | KString | KData
                | KList | KRef | KOptional | KVariant.

(** ParseFieldImpl.h ParseReusableState (m_state), versions of ParseObject.h and
    whether the parent object is a bitfield (ParseFieldImpl.cpp 235-240).
    Extra attributes / children (m_extraAttrs, m_extraChildren) are not modelled.
    [c_ovr]: value, read, write, refresh, length, valid, name override. *)
Record common := mkCommon {
  c_name : str; c_displayName : str; c_description : str;
  c_sem : sem_type; c_ovr : list override; c_copyCodeFrom : str;
  c_validateMinLength : Z; (* int, negative when absent *)
  c_pseudo : bool; c_fixedValue : bool; c_customizable : bool;
  c_failOnInvalid : bool; c_forceGen : bool;
  c_since : Z; c_deprecated : Z; c_removed : bool;
  c_inBitfield : bool }.

(** ParseIntField::ParseType *)
Inductive int_type := Int8 | Uint8 | Int16 | Uint16 | Int32 | Uint32 | Int64 | Uint64 | Intvar | Uintvar.

(** ParseIntField.h ParseValidRangeInfo *)
Record vrange := mkRange { r_min : Z; r_max : Z; r_since : Z; r_depr : Z }.
(** ParseIntField.h ParseSpecialValueInfo, ParseEnumField.h ParseValueInfo *)
Record named_val := mkVal { v_value : Z; v_since : Z; v_depr : Z; v_description : str; v_displayName : str }.

(** ParseIntFieldImpl.h ParseState. Values are intmax_t; for uint64 / uintvar
    types they hold the unsigned value converted to intmax_t. m_specials is
    a std::map; it is kept here as an association list in insertion order. *)
Record int_state := mkInt {
  i_type : int_type; i_endian : endian; i_length : Z; i_bitLength : Z; i_serOffset : Z;
  i_typeMin : Z; i_typeMax : Z; i_min : Z; i_max : Z; i_default : Z;
  i_scaling : Z * Z; i_ranges : list vrange; i_specials : list (str * named_val);
  i_units : str; i_displayDecimals : Z; i_displayOffset : Z;
  i_validCheckVersion : bool; i_signExt : bool; i_nonUniqueSpecials : bool;
  i_availableLengthLimit : bool }.

(** ParseEnumFieldImpl.h ParseState. m_revValues (value -> name multimap) is the
    inverse of m_values and is not stored. *)
Record enum_state := mkEnum {
  en_type : int_type; en_endian : endian; en_length : Z; en_bitLength : Z;
  en_typeMin : Z; en_typeMax : Z; en_min : Z; en_max : Z; en_default : Z;
  en_values : list (str * named_val);
  en_nonUnique : bool; en_validCheckVersion : bool; en_hexAssign : bool;
  en_availableLengthLimit : bool }.

(** ParseSetField.h ParseBitInfo *)
Record bit_info := mkBit {
  b_idx : Z; b_since : Z; b_depr : Z; b_default : bool; b_reserved : bool;
  b_reservedValue : bool; b_description : str; b_displayName : str }.
(** ParseSetFieldImpl.h ParseState. m_revBits (index -> name multimap) is the
    inverse of m_bits and is not stored. [s_type] may be unset (NumOfValues). *)
Record set_state := mkSet {
  s_type : option int_type; s_endian : endian; s_length : Z; s_bitLength : Z;
  s_bits : list (str * bit_info); s_nonUnique : bool;
  s_defaultBit : bool; s_reservedBit : bool; s_validCheckVersion : bool;
  s_availableLengthLimit : bool }.

(** ParseFloatField::ParseType, ParseFloatFieldImpl.h ParseState; double = binary64 *)
Inductive float_type := Float32 | Float64.
Record frange := mkFRange { fr_min : spec_float; fr_max : spec_float; fr_since : Z; fr_depr : Z }.
Record fspecial := mkFSpecial { fs_value : spec_float; fs_since : Z; fs_depr : Z;
                                fs_description : str; fs_displayName : str }.
Record float_state := mkFloat {
  f_type : float_type; f_endian : endian; f_length : Z;
  f_default : spec_float; f_ranges : list frange; f_specials : list (str * fspecial);
  f_units : str; f_displayDecimals : Z; f_validCheckVersion : bool; f_nonUniqueSpecials : bool }.

(** ParseStringFieldImpl.h ParseState / ParseDataFieldImpl.h ParseState. The data
    default value is a list of byte values. *)
Record valid_value (A : Type) := mkVV { vv_value : A; vv_since : Z; vv_depr : Z }.
Arguments mkVV {A}. Arguments vv_value {A}. Arguments vv_since {A}. Arguments vv_depr {A}.
Record string_state := mkString {
  st_default : str; st_encoding : str; st_length : Z; st_detached : str;
  st_valid : list (valid_value str); st_zeroSuffix : bool }.
Record data_state := mkData {
  d_default : list Z; d_length : Z; d_detached : str; d_valid : list (valid_value (list Z)) }.
(** ParseListFieldImpl.h ParseState without the field pointers *)
Record list_state := mkList {
  l_count : Z; l_detCount : str; l_detLength : str; l_detElemLength : str; l_detTerm : str;
  l_elemFixedLength : bool }.
(** ParseOptionalField::ParseMode *)
Inductive opt_mode := Tentative | Missing | Exists.
Record opt_state := mkOpt { o_mode : opt_mode; o_missingOnReadFail : bool; o_missingOnInvalid : bool }.

(** ParseOptCondImpl.h: expression or and/or list *)
Inductive cond := CExpr (left op right : str) | CList (isAnd : bool) (cs : list cond).
(** ParseAliasImpl.h m_state: name, description, fieldName *)
Record alias := mkAlias { a_name : str; a_description : str; a_fieldName : str }.

(** A parsed field. Pointers to other fields (members, prefixes, referenced
    fields) are represented by the field itself: a field object is never changed
    after its parse() succeeded. Prefixes, suffixes, list elements and optional fields come with a
    flag: [true] when the field belongs to this one (m_prefixField, m_field, ...), [false]
    when it is an external field (m_state.m_extPrefixField, m_state.m_extField, ...). *)
Inductive field : Type :=
| FInt (c : common) (s : int_state)
| FEnum (c : common) (s : enum_state)
| FSet (c : common) (s : set_state)
| FFloat (c : common) (s : float_state)
| FBitfield (c : common) (e : endian) (ms : list field) (vc : option cond)
| FBundle (c : common) (ms : list field) (als : list alias) (vc : option cond)
| FString (c : common) (s : string_state) (pre : option (bool * field))
| FData (c : common) (s : data_state) (pre : option (bool * field))
| FList (c : common) (s : list_state) (elem : bool * field)
        (cnt len elemLen term : option (bool * field))
| FRef (c : common) (bitLength : Z) (target : field)
| FOptional (c : common) (s : opt_state) (own : bool) (f : field) (cnd : option cond)
| FVariant (c : common) (defaultIdx : option Z) (ms : list field).

Definition f_common (f : field) : common :=
  match f with
  | FInt c _ | FEnum c _ | FSet c _ | FFloat c _ | FBitfield c _ _ _ | FBundle c _ _ _
  | FString c _ _ | FData c _ _ | FList c _ _ _ _ _ _ | FRef c _ _ | FOptional c _ _ _ _
  | FVariant c _ _ => c
  end.
Definition f_kind (f : field) : kind :=
  match f with
  | FInt _ _ => KInt | FEnum _ _ => KEnum | FSet _ _ => KSet | FFloat _ _ => KFloat
  | FBitfield _ _ _ _ => KBitfield | FBundle _ _ _ _ => KBundle | FString _ _ _ => KString
  | FData _ _ _ => KData | FList _ _ _ _ _ _ _ => KList | FRef _ _ _ => KRef
  | FOptional _ _ _ _ _ => KOptional | FVariant _ _ _ => KVariant
  end.
Definition f_name (f : field) : str := c_name (f_common f).
(** parseSemanticType: ParseFieldImpl.h 102-105 *)
Definition f_sem (f : field) : sem_type := c_sem (f_common f).

(** parseMembersImpl: Bitfield.cpp 252-255, Bundle.cpp 300-303, Variant.cpp 203-206 *)
Definition f_members (f : field) : list field :=
  match f with
  | FBitfield _ _ ms _ | FBundle _ ms _ _ | FVariant _ _ ms => ms
  | _ => []
  end.

(** ** Integer types: ParseIntFieldImpl.h / .cpp *)
(** ParseIntFieldImpl.cpp 285-311 parseIsUnsigned, parseIsTypeUnsigned *)
Definition is_unsigned (t : int_type) : bool :=
  match t with Uint8 | Uint16 | Uint32 | Uint64 | Uintvar => true | _ => false end.
(** ParseIntFieldImpl.h parseIsBigUnsigned *)
Definition is_big (t : int_type) : bool := match t with Uint64 | Uintvar => true | _ => false end.
Definition is_var (t : int_type) : bool := match t with Intvar | Uintvar => true | _ => false end.
Definition int_type_eqb (a b : int_type) : bool :=
  match a, b with
  | Int8, Int8 | Uint8, Uint8 | Int16, Int16 | Uint16, Uint16 | Int32, Int32 | Uint32, Uint32
  | Int64, Int64 | Uint64, Uint64 | Intvar, Intvar | Uintvar, Uintvar => true
  | _, _ => false
  end.

(** ** Lengths *)
(** parseBitLength: Int.cpp 406-412, Enum.cpp 148-154, Set.cpp 136-143, Ref.cpp 129-136,
    others 0 (Field.cpp 558-561) *)
Definition bit_length (f : field) : Z :=
  let c := f_common f in
  if c_inBitfield c then
    match f with
    | FInt _ s => i_bitLength s
    | FEnum _ s => en_bitLength s
    | FSet _ s => s_bitLength s
    | FRef _ b _ => b
    | _ => 0
    end
  else 0.

(** Sums are std::size_t additions: modulo 2^64. *)
Definition sum_u64 (l : list Z) : Z := fold_left (fun a x => to_u64 (a + x)) l 0.

(** parseMinLengthImpl: Int.cpp 392-399, Enum.cpp 134-141, Set.cpp 131-134, Float.cpp 221-224,
    Bitfield.cpp 186-195, Bundle.cpp 210-219, String.cpp 148-163, Data.cpp 146-157,
    List.cpp 137-168, Ref.cpp 117-121, Optional.cpp 154-157, Variant.cpp 157-160 *)
Fixpoint min_length (f : field) : Z :=
  match f with
  | FInt _ s => if is_var (i_type s) then 1 else i_length s
  | FEnum _ s => if is_var (en_type s) then 1 else en_length s
  | FSet _ s => s_length s
  | FFloat _ s => f_length s
  | FBitfield _ _ ms _ => sum_u64 (map bit_length ms) / 8
  | FBundle _ ms _ _ => sum_u64 (map min_length ms)
  | FString _ s pre =>
      if negb (st_length s =? 0) then st_length s
      else if st_zeroSuffix s then 1
      else match pre with Some (_, p) => min_length p | None => 0 end
  | FData _ s pre =>
      if negb (d_length s =? 0) then d_length s
      else match pre with Some (_, p) => min_length p | None => 0 end
  | FList _ s elem cnt len elemLen term =>
      let extra := match elemLen with Some (_, p) => min_length p | None => 0 end in
      if negb (l_count s =? 0) then
        let extra := if l_elemFixedLength s then extra else to_u64 (extra * l_count s) in
        to_u64 (to_u64 (l_count s * min_length (snd elem)) + extra)
      else match cnt with
      | Some (_, p) => min_length p
      | None => match len with
        | Some (_, p) => min_length p
        | None => match term with Some (_, p) => min_length p | None => 0 end
        end
      end
  | FRef _ _ t => min_length t
  | FOptional _ _ _ _ _ => 0
  | FVariant _ _ _ => 0
  end.

(** the test of Bundle.cpp 225 *)
Definition is_length_sem (f : field) : bool :=
  match f_sem f with SemLength => true | _ => false end.

(** parseMaxLengthImpl: default is parseMinLengthImpl (Field.cpp 553-556: Set, Float, Bitfield);
    Int.cpp 401-404, Enum.cpp 143-146, Bundle.cpp 221-233, String.cpp 165-188,
    Data.cpp 159-182, List.cpp 170-223, Ref.cpp 123-127, Optional.cpp 159-163,
    Variant.cpp 162-176. [UB]: division by zero in parseMulLength, or the static_cast of
    a count prefix that is not an int field. *)
Fixpoint max_length (f : field) : res Z :=
  match f with
  | FInt _ s => Ok (i_length s)
  | FEnum _ s => Ok (en_length s)
  | FSet _ _ | FFloat _ _ | FBitfield _ _ _ _ => Ok (min_length f)
  | FBundle _ ms _ _ =>
      (fix go (ms : list field) (sum : Z) : res Z :=
         match ms with
         | [] => Ok sum
         | m :: ms' =>
             if is_length_sem m then Ok max_len
             else x <- max_length m ;; go ms' (add_len x sum)
         end) ms 0
  | FString _ s pre =>
      if negb (st_length s =? 0) then Ok (st_length s)
      else match pre with
           | Some (_, FInt _ p) => Ok (add_len (to_u64 (i_max p)) (i_length p))
           | _ => Ok max_len
           end
  | FData _ s pre =>
      if negb (d_length s =? 0) then Ok (d_length s)
      else match pre with
           | Some (_, FInt _ p) => Ok (add_len (to_u64 (i_max p)) (i_length p))
           | _ => Ok max_len
           end
  | FList _ s elem cnt len elemLen term =>
      extra <- match elemLen with Some (_, p) => x <- max_length p ;; Ok (add_len x 0) | None => Ok 0 end ;;
      elemMax <- max_length (snd elem) ;;
      if negb (l_count s =? 0) then
        extra <- (if l_elemFixedLength s then Ok extra else mul_len extra (l_count s)) ;;
        m <- mul_len elemMax (l_count s) ;;
        Ok (add_len m extra)
      else match cnt with
      | Some (_, FInt _ p) =>
          let count := to_u64 (i_max p) in
          r <- mul_len elemMax count ;;
          let r := add_len (i_length p) r in
          extra <- (if l_elemFixedLength s then Ok extra else mul_len extra count) ;;
          Ok (add_len extra r)
      | Some _ => UB
      | None =>
          match len with
          | Some (_, FInt _ p) => Ok (add_len (to_u64 (i_max p)) (i_length p))
          | _ => Ok max_len
          end
      end
  | FRef _ _ t => max_length t
  | FOptional _ _ _ g _ => max_length g
  | FVariant _ _ ms =>
      (fix go (ms : list field) (sum : Z) : res Z :=
         match ms with
         | [] => Ok sum
         | m :: ms' => x <- max_length m ;; if x =? max_len then Ok x else go ms' (Z.max x sum)
         end) ms 0
  end.

(** ** Value references *)
(** text before the first '.' and, if there is one, the text after it *)
Definition first_seg (s : str) : str * option str :=
  match split_at "." s with Some (a, b) => (a, Some b) | None => (s, None) end.
Definition rest_or_nil (o : option str) : str := match o with Some r => r | None => [] end.

(** parseStrToNumericOnFields & co (Field.cpp 916-1039) and the per kind overrides
    (Bitfield.cpp 197-210, Bundle.cpp 235-258, Variant.cpp 178-201, Ref.cpp 150-203 270-280,
    Optional.cpp 165-238 539-561): walk along a dotted path to the field that
    holds the value; [leaf] is applied to that field with the remaining text.
    [frs] = parseIsFieldValueReferenceSupported(). *)
Fixpoint resolve {A} (frs : bool) (leaf : field -> str -> option A) (f : field) (ref : str) : option A :=
  match f with
  | FBitfield _ _ ms _ | FBundle _ ms _ _ | FVariant _ _ ms =>
      if is_nil ref || negb frs then None
      else let (first, rest) := first_seg ref in
        (fix go (ms : list field) : option A :=
           match ms with
           | [] => None
           | m :: ms' => if str_eqb (f_name m) first then resolve frs leaf m (rest_or_nil rest) else go ms'
           end) ms
  | FRef _ _ t => if frs then resolve frs leaf t ref else None
  | FOptional _ _ own g _ =>
      if is_nil ref || negb frs || negb own then None
      else let (first, rest) := first_seg ref in
           if str_eqb (f_name g) first then resolve frs leaf g (rest_or_nil rest) else None
  | _ => leaf f ref
  end.

(** Int.cpp 426-457, Enum.cpp 168-199, Set.cpp 181-200: (value, is big unsigned) *)
Definition num_leaf (frs : bool) (f : field) (ref : str) : option (Z * bool) :=
  match f with
  | FInt _ s =>
      let big v := is_big (i_type s) && (v <? 0) in
      if negb frs then None
      else if is_nil ref then Some (i_default s, big (i_default s))
      else match assoc ref (i_specials s) with Some v => Some (v_value v, big (v_value v)) | None => None end
  | FEnum _ s =>
      let big v := is_big (en_type s) && (v <? 0) in
      if is_nil ref then (if frs then Some (en_default s, big (en_default s)) else None)
      else match assoc ref (en_values s) with Some v => Some (v_value v, big (v_value v)) | None => None end
  | FSet _ s =>
      if negb frs then None
      else if is_nil ref then Some (Z.b2z (s_defaultBit s), false)
      else match assoc ref (s_bits s) with Some b => Some (Z.b2z (b_default b), false) | None => None end
  | _ => None
  end.
Definition field_num (frs : bool) : field -> str -> option (Z * bool) := resolve frs (num_leaf frs).
(** Set.cpp 202-220 *)
Definition bool_leaf (frs : bool) (f : field) (ref : str) : option bool :=
  match f with
  | FSet _ s =>
      if negb frs then None
      else if is_nil ref then Some (s_defaultBit s)
      else match assoc ref (s_bits s) with Some b => Some (b_default b) | None => None end
  | _ => None
  end.
Definition field_bool (frs : bool) : field -> str -> option bool := resolve frs (bool_leaf frs).
(** String.cpp 217-229 *)
Definition string_leaf (frs : bool) (f : field) (ref : str) : option str :=
  match f with
  | FString _ s _ => if frs && is_nil ref then Some (st_default s) else None
  | _ => None
  end.
Definition field_string (frs : bool) : field -> str -> option str := resolve frs (string_leaf frs).
(** Data.cpp 184-196 *)
Definition data_leaf (frs : bool) (f : field) (ref : str) : option (list Z) :=
  match f with
  | FData _ s _ => if frs && is_nil ref then Some (d_default s) else None
  | _ => None
  end.
Definition field_data (frs : bool) : field -> str -> option (list Z) := resolve frs (data_leaf frs).
(** Float.cpp 232-250 *)
Definition fp_leaf (frs : bool) (f : field) (ref : str) : option spec_float :=
  match f with
  | FFloat _ s =>
      if negb frs then None
      else if is_nil ref then Some (f_default s)
      else match assoc ref (f_specials s) with Some v => Some (fs_value v) | None => None end
  | _ => None
  end.
Definition field_fp (frs : bool) : field -> str -> option spec_float := resolve frs (fp_leaf frs).

(** ** Sibling references in conditions *)
Inductive ref_type := RField | RInner | RSize | RExists.
Record ref_info := mkRef { ri_field : field; ri_value : str; ri_type : ref_type }.

(** parseIsValidRefType: Field.cpp 467-483 and overrides (Int.cpp 507-510, Enum.cpp 241-244,
    Set.cpp 251-254, Float.cpp 266-269, List.cpp 225-228, String.cpp 231-234, Data.cpp 198-201,
    Ref.cpp 223-227, Optional.cpp 259-262) *)
Fixpoint valid_ref_type (f : field) (t : ref_type) : bool :=
  match t with
  | RField => true
  | _ =>
      (match t with RExists => (0 <? c_since (f_common f)) || (c_deprecated (f_common f) <? not_deprecated)
                  | _ => false end)
      || match f with
         | FInt _ _ | FEnum _ _ | FSet _ _ | FFloat _ _ => match t with RInner => true | _ => false end
         | FList _ _ _ _ _ _ _ | FString _ _ _ | FData _ _ _ => match t with RSize => true | _ => false end
         | FRef _ _ g => valid_ref_type g t
         | FOptional _ _ _ _ _ => match t with RExists => true | _ => false end
         | _ => false
         end
  end.

(** leading '#' and '?' characters of a sibling reference *)
Fixpoint ref_prefix (s : str) : list ascii * str :=
  match s with
  | c :: s' => if ch_eqb c "#" || ch_eqb c "?" then let (p, r) := ref_prefix s' in (c :: p, r) else ([], s)
  | [] => ([], [])
  end.
(** Field.cpp 392-416: effect of the prefix characters on the info found for the rest *)
Fixpoint apply_prefix (p : list ascii) (i : option ref_info) : option ref_info :=
  match p with
  | [] => i
  | c :: p' =>
      match apply_prefix p' i with
      | Some (mkRef g v RField) =>
          let t := if ch_eqb c "#" then RSize else RExists in
          if valid_ref_type g t then Some (mkRef g v t) else None
      | _ => None
      end
  end.

(** parseProcessInnerRef: Field.cpp 444-459; parseProcessInnerRefImpl: Int.cpp 493-505, Enum.cpp
    226-239, Set.cpp 236-249, Float.cpp 252-264, Ref.cpp 217-221, Optional.cpp 240-257 (dereferences
    the null m_field when the wrapped field is external), others Field.cpp 667-672.
    The member loop is parseProcessSiblingRef, Field.cpp 388-442. *)
Fixpoint inner_ref (f : field) (ref : str) : res (option ref_info) :=
  if is_nil ref then Ok (Some (mkRef f [] RField))
  else
    let members ms :=
      let (p, r) := ref_prefix ref in
      let (first, rest) := first_seg r in
      i <- (if is_nil first then Ok None
            else (fix go (ms : list field) : res (option ref_info) :=
                    match ms with
                    | [] => Ok None
                    | m :: ms' => if str_eqb (f_name m) first then inner_ref m (rest_or_nil rest) else go ms'
                    end) ms) ;;
      Ok (apply_prefix p i) in
    let leaf := Ok (Some (mkRef f ref RInner)) in
    match f with
    | FBitfield _ _ ms _ | FBundle _ ms _ _ | FVariant _ _ ms =>
        if is_nil ms then Ok None else members ms
    | FInt _ s => match assoc ref (i_specials s) with Some _ => leaf | None => Ok None end
    | FEnum _ s => match assoc ref (en_values s) with Some _ => leaf | None => Ok None end
    | FSet _ s => match assoc ref (s_bits s) with Some _ => leaf | None => Ok None end
    | FFloat _ s => match assoc ref (f_specials s) with Some _ => leaf | None => Ok None end
    | FRef _ _ g => inner_ref g ref
    | FOptional _ _ own g _ =>
        if negb own then UB
        else let (first, rest) := first_seg ref in
             if str_eqb first (f_name g) then inner_ref g (rest_or_nil rest) else Ok None
    | _ => Ok None
    end.

(** std::find_if over siblings by name *)
Fixpoint find_named (n : str) (ms : list field) : option field :=
  match ms with
  | [] => None
  | m :: ms' => if str_eqb (f_name m) n then Some m else find_named n ms'
  end.

(** parseProcessSiblingRef: Field.cpp 388-442 *)
Definition sibling_ref (sibs : list field) (ref : str) : res (option ref_info) :=
  let (p, r) := ref_prefix ref in
  let (first, rest) := first_seg r in
  i <- (if is_nil first then Ok None
        else match find_named first sibs with
             | None => Ok None
             | Some m => inner_ref m (rest_or_nil rest)
             end) ;;
  Ok (apply_prefix p i).

(** parseFindSibling: Field.cpp 843-871 (fuel: the recursion descends the members) *)
Fixpoint find_sibling (fuel : nat) (fields : list field) (name : str) : option field :=
  match fuel with
  | O => None
  | S fuel' =>
      let (first, rest) := first_seg name in
      match find_named first fields with
      | None => None
      | Some m => match rest with
                  | None => Some m
                  | Some r => find_sibling fuel' (f_members m) r
                  end
      end
  end.

(** parseGetNonRefFieldKind: Field.cpp 873-883 *)
Fixpoint non_ref_kind (f : field) : kind :=
  match f with FRef _ _ t => non_ref_kind t | _ => f_kind f end.
Definition kind_eqb (a b : kind) : bool :=
  match a, b with
  | KInt, KInt | KEnum, KEnum | KSet, KSet | KFloat, KFloat | KBitfield, KBitfield
  | KBundle, KBundle | KString, KString | KData, KData | KList, KList | KRef, KRef
  | KOptional, KOptional | KVariant, KVariant => true
  | _, _ => false
  end.

(** parseIsComparableToField: Field.cpp 288-307, Int.cpp 420-424, Enum.cpp 162-166,
    Set.cpp 175-179, Ref.cpp 144-148 ([other] is unwrapped first) *)
Fixpoint unref (f : field) : field := match f with FRef _ _ t => unref t | _ => f end.
Definition comparable_kinds (a b : kind) : bool :=
  kind_eqb a b ||
  match a, b with
  | KInt, KInt | KInt, KEnum | KEnum, KInt | KEnum, KEnum => true
  | KSet, KSet => true
  | _, _ => false
  end.
Definition comparable_fields (a b : field) : bool :=
  comparable_kinds (non_ref_kind a) (f_kind (unref b)).

(** parseVerifyAliasedMember: Field.cpp 357-364 650-653, Bitfield.cpp 223-245, Bundle.cpp 271-293 *)
Fixpoint verify_aliased (f : field) (name : str) : bool :=
  if is_nil name then true
  else match f with
  | FBitfield _ _ ms _ | FBundle _ ms _ _ =>
      let (first, rest) := first_seg name in
      (fix go (ms : list field) : bool :=
         match ms with
         | [] => false
         | m :: ms' => if str_eqb first (f_name m)
                       then match rest with None => true | Some r => verify_aliased m r end
                       else go ms'
         end) ms
  | _ => false
  end.

(** parseValidateMembersNames: Field.cpp 214-233 *)
Fixpoint distinct_names (used : list str) (ms : list field) : bool :=
  match ms with
  | [] => true
  | m :: ms' => negb (mem_str (f_name m) used) && distinct_names (f_name m :: used) ms'
  end.
