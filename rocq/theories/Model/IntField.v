(** Model of lib/src/parse/ParseIntFieldImpl.cpp. *)
From Verif.Model Require Import Base Common Xml Units Field FieldCommon.

(** 146-167 parseTypeValue *)
Definition int_type_of (s : str) : option int_type :=
  assoc (to_lower s)
    [(L "int8", Int8); (L "uint8", Uint8); (L "int16", Int16); (L "uint16", Uint16);
     (L "int32", Int32); (L "uint32", Uint32); (L "int64", Int64); (L "uint64", Uint64);
     (L "intvar", Intvar); (L "uintvar", Uintvar)]%string.

(** 169-196 parseMaxTypeLength *)
Definition max_type_length (t : int_type) : Z :=
  match t with
  | Int8 | Uint8 => 1 | Int16 | Uint16 => 2 | Int32 | Uint32 => 4
  | Int64 | Uint64 => 8 | Intvar | Uintvar => 10
  end.
(** 198-224 parseMinTypeValue *)
Definition min_type_value (t : int_type) : Z :=
  match t with
  | Int8 => -128 | Int16 => -32768 | Int32 => -2147483648
  | Int64 | Intvar => int_min
  | Uint8 | Uint16 | Uint32 | Uint64 | Uintvar => 0
  end.
(** 226-253 parseMaxTypeValue; UINT64_MAX becomes -1 *)
Definition max_type_value (t : int_type) : Z :=
  match t with
  | Int8 => 127 | Int16 => 32767 | Int32 => 2147483647 | Int64 | Intvar => int_max
  | Uint8 => 255 | Uint16 => 65535 | Uint32 => 4294967295
  | Uint64 | Uintvar => to_s64 uint_max
  end.

(** 70-78; the shift by (0 - 1) is undefined *)
Definition calc_max_fixed_signed (bits : Z) : res Z :=
  if 64 <=? bits then Ok int_max
  else if bits =? 0 then UB
  else Ok (2 ^ (bits - 1) - 1).
(** 80-84: ~x on uintmax_t, back to intmax_t *)
Definition calc_min_fixed_signed (bits : Z) : res Z :=
  m <- calc_max_fixed_signed bits ;; Ok (- m - 1).
(** 86-94 *)
Definition calc_max_fixed_unsigned (bits : Z) : Z :=
  if 64 <=? bits then uint_max else 2 ^ bits - 1.
(** 98, 108, 120 *)
Definition var_bits (bits : Z) : Z := Z.min (bits / 8 * 7) 64.
(** 96-104 *)
Definition calc_max_var_unsigned (bits : Z) : Z :=
  if var_bits bits =? 64 then uint_max else 2 ^ var_bits bits - 1.
(** 106-116 *)
Definition calc_max_var_signed (bits : Z) : Z :=
  if var_bits bits =? 64 then int_max
  else let r := calc_max_var_unsigned bits in
       to_s64 (Z.lxor r (Z.shiftr (to_u64 (r + 1)) 1)).
(** 118-127 *)
Definition calc_min_var_signed (bits : Z) : Z :=
  if var_bits bits =? 64 then int_min else - (calc_max_var_signed bits) - 1.
(** 129-136 parseCalcMaxUnsignedValue *)
Definition calc_max_unsigned (t : int_type) (bits : Z) : Z :=
  match t with Uintvar => calc_max_var_unsigned bits | _ => calc_max_fixed_unsigned bits end.
(** 255-266 parseCalcMinValue *)
Definition calc_min (t : int_type) (bits : Z) : res Z :=
  if is_unsigned t then Ok 0
  else match t with
       | Intvar => Ok (calc_min_var_signed bits)
       | _ => calc_min_fixed_signed bits
       end.
(** 268-283 parseCalcMaxValue *)
Definition calc_max (t : int_type) (bits : Z) : res Z :=
  if is_big t then Ok (to_s64 (calc_max_unsigned t bits))
  else match t with
       | Intvar => Ok (calc_max_var_signed bits)
       | _ => if is_unsigned t then Ok (to_s64 (calc_max_unsigned t bits))
              else calc_max_fixed_signed bits
       end.

(** 512-543 parseUpdateType; [old] = None for NumOfValues *)
Definition int_update_type (p : props) (old : option int_type) : res int_type :=
  _ <- parseValidateSinglePropInstance p (L "type") (match old with None => true | Some _ => false end) ;;
  match find_prop p (L "type") with
  | None => of_opt old
  | Some v =>
      t <- of_opt (int_type_of v) ;;
      match old with
      | None => Ok t
      | Some o => if int_type_eqb t o then Ok o else Err
      end
  end.

(** 545-562 parseUpdateEndian *)
Definition update_endian (e : env) (p : props) (old : option endian) : res endian :=
  _ <- parseValidateSinglePropInstance p (L "endian") false ;;
  let s := get_prop p (L "endian") in
  match (if is_nil s then old else None) with
  | Some o => Ok o
  | None => of_opt (parseEndian s (e_endian e))
  end.

(** 564-612 parseUpdateLength; [old] = 0 when not set *)
Definition int_update_length (p : props) (t : int_type) (old : Z) : res Z :=
  _ <- parseValidateSinglePropInstance p (L "length") false ;;
  let s := get_prop p (L "length") in
  if is_nil s then Ok (if old =? 0 then max_type_length t else old)
  else
    n <- of_opt (parseStrToUintMax s) ;;
    if n =? 0 then Err
    else if old =? n then Ok old
    else if negb (old =? 0) then Err
    else if max_type_length t <? n then Err
    else Ok n.

(** 459-477 parseValidateBitLengthValueImpl *)
Definition int_bit_length_ok (t : int_type) (length bits : Z) : bool :=
  negb (is_var t) && (bits <=? length * 8).

(** 614-654 parseUpdateBitLength *)
Definition int_update_bit_length (p : props) (inBf : bool) (t : int_type) (length old : Z) : res Z :=
  _ <- parseValidateSinglePropInstance p (L "bitLength") false ;;
  let s := get_prop p (L "bitLength") in
  let maxBits := length * 8 in
  if is_nil s then Ok (if old =? 0 then maxBits else old)
  else if negb inBf then Ok maxBits
  else
    b <- of_opt (parseStrToUnsigned s) ;;
    _ <- guard (int_bit_length_ok t length b) ;;
    Ok b.

(** 805-885 parseUpdateScaling *)
Definition update_scaling (p : props) (old : Z * Z) : res (Z * Z) :=
  _ <- parseValidateSinglePropInstance p (L "scaling") false ;;
  let num0 := if fst old =? 0 then 1 else fst old in
  let den0 := if snd old =? 0 then 1 else snd old in
  let s := get_prop p (L "scaling") in
  '(num, den) <-
    (if is_nil s then Ok (num0, den0)
     else match split_at "/" s with
     | None => n <- of_opt (parseStrToIntMax s) ;; Ok (n, 1)
     | Some (ns, ds) =>
         match split_at "/" ds with
         | Some _ => Err
         | None =>
             if is_nil ns || is_nil ds then Err
             else n <- of_opt (parseStrToIntMax ns) ;;
                  d <- of_opt (parseStrToIntMax ds) ;;
                  Ok (n, d)
         end
     end) ;;
  if (num =? 0) || (den =? 0) then Err else Ok (num, den).

(** 656-677 parseUpdateSerOffset *)
Definition update_ser_offset (p : props) (old : Z) : res Z :=
  _ <- parseValidateSinglePropInstance p (L "serOffset") false ;;
  let s := get_prop p (L "serOffset") in
  if is_nil s then Ok old else of_opt (parseStrToIntMax s).

(** 708-722 on intmax_t: [limit] and the subtractions are signed arithmetic *)
Definition off_min_signed (so v : Z) : res Z :=
  if so <? 0 then s64 (v - so)
  else limit <- s64 (int_min + so) ;;
       if limit <? v then s64 (v - so) else Ok v.
(** 708-722 on uint64_t: arithmetic modulo 2^64 *)
Definition off_min_unsigned (so v : Z) : Z :=
  if so <? 0 then to_u64 (v - so)
  else if to_u64 so <? v then to_u64 (v - so) else v.
(** 724-738 on intmax_t *)
Definition off_max_signed (so v : Z) : res Z :=
  if so <? 0 then
    limit <- s64 (int_max + so) ;;
    if v <? limit then s64 (v - so) else Ok v
  else s64 (v - so).
(** 724-738 on uint64_t *)
Definition off_max_unsigned (so v : Z) : Z :=
  if so <? 0 then (if v <? to_u64 (uint_max + so) then to_u64 (v - so) else v)
  else to_u64 (v - so).

(** 679-756 parseUpdateMinMaxValues: (typeMin, typeMax, min, max) *)
Definition int_min_max (t : int_type) (bits so : Z) : res (Z * Z * Z * Z) :=
  let tmin := min_type_value t in
  let tmax := max_type_value t in
  mn <- calc_min t bits ;;
  mx <- calc_max t bits ;;
  if so =? 0 then Ok (tmin, tmax, mn, mx)
  else
    _ <- (if is_big t || (tmax =? int_max) then Ok tt
          else a <- s64 (Z.abs so) ;; guard (a <? tmax - tmin)) ;;
    if negb (is_unsigned t) then
      mn' <- off_min_signed so mn ;;
      mx' <- off_max_signed so mx ;;
      Ok (tmin, tmax, mn', mx')
    else
      Ok (tmin, tmax, to_s64 (off_min_unsigned so (to_u64 mn)), to_s64 (off_max_unsigned so (to_u64 mx))).

(** 1605-1650 parseStrToValue *)
Definition int_str_to_value (e : env) (t : int_type) (specials : list (str * named_val)) (s : str) : option Z :=
  match (if parseIsValidName s then assoc s specials else None) with
  | Some v => Some (v_value v)
  | None =>
      if parseIsValidRefName s then
        match e_num e s with
        | None => None
        | Some (v, big) =>
            if negb big && (v <? 0) && is_unsigned t then None
            else if big && negb (is_big t) then None
            else Some v
        end
      else if is_big t then option_map to_s64 (parseStrToUintMax s)
      else parseStrToIntMax s
  end.

(** properties of a <special> / enum <validValue> element, 1017-1053 *)
Definition named_value_props : list str :=
  [L "name"; L "val"; L "sinceVersion"; L "deprecated"; L "description"; L "displayName"].
Definition single_props (p : props) (must : list str) (may : list str) : res unit :=
  _ <- mapM (fun k => parseValidateSinglePropInstance p k true) must ;;
  _ <- mapM (fun k => parseValidateSinglePropInstance p k false) may ;;
  Ok tt.

(** 1016-1146: one <special> child. State: (specials, values seen in this element) *)
Definition int_special (e : env) (t : int_type) (nonUnique : bool) (tmin tmax since depr : Z)
    (st : list (str * named_val) * list Z) (n : node) : res (list (str * named_val) * list Z) :=
  let (specials, seen) := st in
  p <- parseChildrenAsProps n named_value_props true (parseNodeProps n) ;;
  _ <- single_props p [L "name"; L "val"] [L "sinceVersion"; L "deprecated"; L "description"; L "displayName"] ;;
  let name := get_prop p (L "name") in
  _ <- guard (parseIsValidName name) ;;
  _ <- guard (negb (has_key name specials)) ;;
  v <- of_opt (int_str_to_value e t specials (get_prop p (L "val"))) ;;
  _ <- guard (nonUnique || negb (existsb (Z.eqb v) seen)) ;;
  _ <- guard (in_limits (is_big t) tmin tmax v) ;;
  '(s, d) <- parseGetAndCheckVersions (e_version e) p (since, depr) ;;
  Ok (specials ++ [(name, mkVal v s d (get_prop p (L "description")) (get_prop p (L "displayName")))],
      if nonUnique then seen else v :: seen).

(** 1652-1707 parseUpdateDefaultValueInternal *)
Definition int_default_internal (e : env) (t : int_type) (specials : list (str * named_val))
    (tmin tmax : Z) (s : str) : res Z :=
  v <- of_opt (int_str_to_value e t specials s) ;;
  _ <- guard (in_limits (is_big t) tmin tmax v) ;;
  Ok v.

(** 758-771 parseUpdateDefaultValue *)
Definition int_update_default (e : env) (p : props) (t : int_type) (specials : list (str * named_val))
    (tmin tmax old : Z) : res Z :=
  _ <- parseValidateSinglePropInstance p (L "defaultValue") false ;;
  let s := get_prop p (L "defaultValue") in
  if is_nil s then Ok old else int_default_internal e t specials tmin tmax s.

(** 773-803 parseUpdateDefaultValidValue: (default, ranges) *)
Definition int_update_default_valid (e : env) (p : props) (t : int_type) (specials : list (str * named_val))
    (tmin tmax since depr old : Z) (ranges : list vrange) : res (Z * list vrange) :=
  _ <- parseValidateSinglePropInstance p (L "defaultValidValue") false ;;
  match find_prop p (L "defaultValidValue") with
  | None => Ok (old, ranges)
  | Some v =>
      if negb (prop_supported e (L "defaultValidValue")) then Ok (old, ranges)
      else d <- int_default_internal e t specials tmin tmax v ;;
           Ok (d, ranges ++ [mkRange d d since depr])
  end.

(** 1501-1564 parseValidateValidRangeStr *)
Definition int_range_of (e : env) (t : int_type) (specials : list (str * named_val)) (s : str) : res (Z * Z) :=
  '(lo, hi) <- of_opt (parseRange s) ;;
  mn <- of_opt (int_str_to_value e t specials lo) ;;
  mx <- of_opt (int_str_to_value e t specials hi) ;;
  if as_cmp (is_big t) mn <=? as_cmp (is_big t) mx then Ok (mn, mx) else Err.

(** 1260-1499: the four properties that give valid ranges *)
Inductive range_prop := ValidRange | ValidValue | ValidMin | ValidMax.
Definition range_prop_name (r : range_prop) : str :=
  match r with ValidRange => L "validRange" | ValidValue => L "validValue"
             | ValidMin => L "validMin" | ValidMax => L "validMax" end.
Definition int_range_prop (e : env) (t : int_type) (specials : list (str * named_val)) (mn mx : Z)
    (r : range_prop) (s : str) : res (Z * Z) :=
  match r with
  | ValidRange => int_range_of e t specials s
  | ValidValue => v <- of_opt (int_str_to_value e t specials s) ;; Ok (v, v)
  | ValidMin => v <- of_opt (int_str_to_value e t specials s) ;; Ok (v, mx)
  | ValidMax => v <- of_opt (int_str_to_value e t specials s) ;; Ok (mn, v)
  end.
(** attribute first (..AsAttr), then the children elements (..AsChild) *)
Definition int_ranges_of_prop (e : env) (t : int_type) (specials : list (str * named_val)) (mn mx since depr : Z)
    (n : node) (r : range_prop) : res (list vrange) :=
  a <- match find_prop (parseNodeProps n) (range_prop_name r) with
       | None => Ok []
       | Some s => '(lo, hi) <- int_range_prop e t specials mn mx r s ;; Ok [mkRange lo hi since depr]
       end ;;
  cs <- mapM (fun ch =>
          s <- parseNodeValue ch false ;;
          '(lo, hi) <- int_range_prop e t specials mn mx r s ;;
          '(sv, dv) <- parseGetAndCheckVersionsNode (e_version e) ch (since, depr) ;;
          Ok (mkRange lo hi sv dv)) (parseGetChildrenNamed n (range_prop_name r)) ;;
  Ok (a ++ cs).
Definition int_new_ranges (e : env) (t : int_type) (specials : list (str * named_val)) (mn mx since depr : Z)
    (n : node) : res (list vrange) :=
  a <- int_ranges_of_prop e t specials mn mx since depr n ValidRange ;;
  b <- int_ranges_of_prop e t specials mn mx since depr n ValidValue ;;
  c <- int_ranges_of_prop e t specials mn mx since depr n ValidMin ;;
  d <- int_ranges_of_prop e t specials mn mx since depr n ValidMax ;;
  Ok (a ++ b ++ c ++ d).

(** std::sort. Both comparators used here are total orders on the four members, so
    every sorting algorithm gives the same sequence: insertion sort. *)
Section Sort.
  Context {A : Type} (lt : A -> A -> bool).
  Fixpoint insert (x : A) (l : list A) : list A :=
    match l with
    | [] => [x]
    | y :: l' => if lt y x then y :: insert x l' else x :: l
    end.
  Definition isort (l : list A) : list A := fold_right insert [] l.
End Sort.

(** 906-933: by since, deprecated, min, max *)
Definition lt_version (big : bool) (a b : vrange) : bool :=
  if negb (r_since a =? r_since b) then r_since a <? r_since b
  else if negb (r_depr a =? r_depr b) then r_depr a <? r_depr b
  else if negb (r_min a =? r_min b) then as_cmp big (r_min a) <? as_cmp big (r_min b)
  else as_cmp big (r_max a) <? as_cmp big (r_max b).
(** 968-998: by min, max, since, deprecated *)
Definition lt_value (big : bool) (a b : vrange) : bool :=
  if negb (r_min a =? r_min b) then as_cmp big (r_min a) <? as_cmp big (r_min b)
  else if negb (r_max a =? r_max b) then as_cmp big (r_max a) <? as_cmp big (r_max b)
  else if negb (r_since a =? r_since b) then r_since a <? r_since b
  else r_depr a <? r_depr b.

(** 936-965: merge with the following ranges of equal versions, dropping those
    absorbed. The index loops with "invalidated" marks are this one pass: marked
    elements form a run right after [iter]. Comparison and "+ 1" are signed. *)
Fixpoint merge_into (cur : vrange) (l : list vrange) : res (list vrange) :=
  match l with
  | [] => Ok [cur]
  | x :: l' =>
      if (r_since cur =? r_since x) && (r_depr cur =? r_depr x) then
        m1 <- s64 (r_max cur + 1) ;;
        if m1 <? r_min x then rest <- merge_into x l' ;; Ok (cur :: rest)
        else merge_into (mkRange (r_min cur) (Z.max (r_max cur) (r_max x)) (r_since cur) (r_depr cur)) l'
      else rest <- merge_into x l' ;; Ok (cur :: rest)
  end.
Definition merge_ranges (l : list vrange) : res (list vrange) :=
  match l with [] => Ok [] | x :: l' => merge_into x l' end.

(** 904-998 *)
Definition normalise_ranges (big : bool) (l : list vrange) : res (list vrange) :=
  m <- merge_ranges (isort (lt_version big) l) ;;
  Ok (isort (lt_value big) m).

(** 1151-1170 parseUpdateUnits *)
Definition update_units (p : props) (old : str) : res str :=
  _ <- parseValidateSinglePropInstance p (L "units") false ;;
  match find_prop p (L "units") with None => Ok old | Some v => of_opt (parseStrToUnits v) end.
(** 1172-1191 parseUpdateDisplayDecimals *)
Definition update_display_decimals (p : props) (old : Z) : res Z :=
  _ <- parseValidateSinglePropInstance p (L "displayDecimals") false ;;
  match find_prop p (L "displayDecimals") with None => Ok old | Some v => of_opt (parseStrToUnsigned v) end.
(** 1193-1212 parseUpdateDisplayOffset *)
Definition update_display_offset (p : props) (old : Z) : res Z :=
  _ <- parseValidateSinglePropInstance p (L "displayOffset") false ;;
  match find_prop p (L "displayOffset") with None => Ok old | Some v => of_opt (parseStrToIntMax v) end.

(** 323-349 parseExtraPropsNamesImpl *)
Definition int_props : list str :=
  [L "type"; L "defaultValue"; L "units"; L "scaling"; L "endian"; L "length"; L "bitLength";
   L "serOffset"; L "validRange"; L "validValue"; L "validMin"; L "validMax"; L "validCheckVersion";
   L "nonUniqueSpecialsAllowed"; L "displayDecimals"; L "displayOffset"; L "signExt"; L "displaySpecials";
   L "defaultValidValue"; L "availableLengthLimit"].

(** 368-390 parseImpl, in the order of the source. [old]: state of the reused field *)
Definition int_parse (e : env) (c : common) (p : props) (n : node) (old : option int_state) : res int_state :=
  let since := c_since c in
  let depr := c_deprecated c in
  let get {A} (f : int_state -> A) (d : A) := match old with Some o => f o | None => d end in
  t <- int_update_type p (option_map i_type old) ;;
  en <- update_endian e p (option_map i_endian old) ;;
  len <- int_update_length p t (get i_length 0) ;;
  bits <- int_update_bit_length p (c_inBitfield c) t len (get i_bitLength 0) ;;
  sc <- update_scaling p (get i_scaling (0, 0)) ;;
  so <- update_ser_offset p (get i_serOffset 0) ;;
  '(tmin, tmax, mn, mx) <- int_min_max t bits so ;;
  nonU <- bool_prop e p (L "nonUniqueSpecialsAllowed") (get i_nonUniqueSpecials (negb (nonunique_specials_supported e))) ;;
  '(specials, _) <- foldM (int_special e t nonU tmin tmax since depr) (parseGetChildrenNamed n (L "special"))
                          (get i_specials [], []) ;;
  dflt <- int_update_default e p t specials tmin tmax (get i_default 0) ;;
  '(dflt, ranges) <- int_update_default_valid e p t specials tmin tmax since depr dflt (get i_ranges []) ;;
  vcv <- bool_prop e p (L "validCheckVersion") (get i_validCheckVersion false) ;;
  new <- int_new_ranges e t specials mn mx since depr n ;;
  ranges <- normalise_ranges (is_big t) (ranges ++ new) ;;
  units <- update_units p (get i_units (L "Unknown")) ;;
  dec <- update_display_decimals p (get i_displayDecimals 0) ;;
  doff <- update_display_offset p (get i_displayOffset 0) ;;
  sext <- bool_prop e p (L "signExt") (get i_signExt true) ;;
  all <- bool_prop e p (L "availableLengthLimit") (get i_availableLengthLimit false) ;;
  Ok (mkInt t en len bits so tmin tmax mn mx dflt sc ranges specials units dec doff vcv sext nonU all).

(** 414-418 parseIsComparableToValueImpl *)
Definition int_comparable (e : env) (s : int_state) (v : str) : bool :=
  match int_str_to_value e (i_type s) (i_specials s) v with Some _ => true | None => false end.
