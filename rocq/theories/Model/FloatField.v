(** Model of lib/src/parse/ParseFloatFieldImpl.cpp. double is IEEE-754 binary64
    (Coq's SpecFloat). *)
From Verif.Model Require Import Base Common Xml Units Field FieldCommon IntField.

Definition is_nan (x : spec_float) : bool := match x with S754_nan => true | _ => false end.
Definition is_inf (x : spec_float) : bool := match x with S754_infinity _ => true | _ => false end.
Definition is_fp_special (x : spec_float) : bool := is_nan x || is_inf x.

(** 39-68 parseCompareLess *)
Definition compare_less (a b : spec_float) : bool :=
  if is_nan a then false
  else if is_nan b then true
  else match a with
  | S754_infinity true => match b with S754_infinity true => false | _ => true end
  | S754_infinity false => false
  | _ => match b with
         | S754_infinity true => false
         | S754_infinity false => true
         | _ => SFltb a b
         end
  end.

(** 70-108: (2^24 - 1) * 2^104 as a binary64, (2^53 - 1) * 2^971, and their negations *)
Definition f_max_value (t : float_type) : spec_float :=
  match t with
  | Float32 => S754_finite false 9007198717870080 75
  | Float64 => S754_finite false 9007199254740991 971
  end.
Definition f_min_value (t : float_type) : spec_float :=
  match t with
  | Float32 => S754_finite true 9007198717870080 75
  | Float64 => S754_finite true 9007199254740991 971
  end.

(** 166-185 parseExtraPropsNamesImpl *)
Definition float_props : list str :=
  [L "type"; L "defaultValue"; L "endian"; L "validRange"; L "validFullRange"; L "validValue"; L "validMin";
   L "validMax"; L "validCheckVersion"; L "units"; L "displayDecimals"; L "nonUniqueSpecialsAllowed"; L "displaySpecials"].

(** 271-313 parseUpdateType *)
Definition float_type_of (s : str) : option float_type :=
  let l := to_lower s in
  if str_eqb l (L "float") then Some Float32 else if str_eqb l (L "double") then Some Float64 else None.
Definition float_type_eqb (a b : float_type) : bool :=
  match a, b with Float32, Float32 | Float64, Float64 => true | _, _ => false end.
Definition float_update_type (p : props) (old : option float_type) : res float_type :=
  _ <- parseValidateSinglePropInstance p (L "type") (match old with None => true | Some _ => false end) ;;
  match find_prop p (L "type") with
  | None => of_opt old
  | Some v =>
      t <- of_opt (float_type_of v) ;;
      match old with
      | None => Ok t
      | Some o => if float_type_eqb t o then Ok o else Err
      end
  end.
(** 315-329 parseUpdateEndian: does not look at the reused state *)
Definition float_update_endian (e : env) (p : props) : res endian :=
  _ <- parseValidateSinglePropInstance p (L "endian") false ;;
  of_opt (parseEndian (get_prop p (L "endian")) (e_endian e)).
(** 331-352 parseUpdateLength *)
Definition float_length (t : float_type) : Z := match t with Float32 => 4 | Float64 => 8 end.

(** parse_common.cpp 1060-1070 parseIsFpSpecial, 989-1022 parseStrToDouble *)
Definition fp_special (s : str) : option spec_float :=
  if str_eqb s (L "nan") then Some S754_nan
  else if str_eqb s (L "inf") then Some (S754_infinity false)
  else if str_eqb s (L "-inf") then Some (S754_infinity true) else None.
Definition str_to_double (e : env) (s : str) (allowSpecials : bool) : option spec_float :=
  match (if allowSpecials then fp_special s else None) with
  | Some v => Some v
  | None => e_stod e s
  end.
(** 1088-1121 parseStrToValue *)
Definition float_str_to_value (e : env) (specials : list (str * fspecial)) (s : str) (allowSpecials : bool) : option spec_float :=
  let l := to_lower s in
  if allowSpecials && (match fp_special l with Some _ => true | None => false end)
  then str_to_double e l allowSpecials
  else match (if parseIsValidName s then assoc s specials else None) with
  | Some v => Some (fs_value v)
  | None => if parseIsValidRefName s then e_fp e s else str_to_double e l allowSpecials
  end.

(** the limit checks of 377-392, 626-633, 1069-1083 *)
Definition float_in_type (t : float_type) (v : spec_float) : bool :=
  is_fp_special v || negb (SFltb (f_max_value t) v || SFltb v (f_min_value t)).

(** 529-655: one <special> child. State: (specials, values seen, NaN seen). std::multimap<double>::find
    compares with operator<, so two values are the same key when neither is less. *)
Definition float_special (e : env) (t : float_type) (nonUnique : bool) (since depr : Z)
    (st : list (str * fspecial) * list spec_float * bool) (n : node) : res (list (str * fspecial) * list spec_float * bool) :=
  let '(specials, seen, nan) := st in
  p <- parseChildrenAsProps n named_value_props true (parseNodeProps n) ;;
  _ <- single_props p [L "name"; L "val"] [L "sinceVersion"; L "deprecated"; L "description"; L "displayName"] ;;
  let name := get_prop p (L "name") in
  _ <- guard (parseIsValidName name) ;;
  _ <- guard (negb (has_key name specials)) ;;
  v <- of_opt (float_str_to_value e specials (get_prop p (L "val")) true) ;;
  '(seen, nan) <- (if nonUnique then Ok (seen, nan)
                   else if is_nan v then (if nan then Err else Ok (seen, true))
                   else if existsb (fun x => negb (SFltb x v) && negb (SFltb v x)) seen then Err
                   else Ok (v :: seen, nan)) ;;
  _ <- guard (float_in_type t v) ;;
  '(s, d) <- parseGetAndCheckVersions (e_version e) p (since, depr) ;;
  Ok (specials ++ [(name, mkFSpecial v s d (get_prop p (L "description")) (get_prop p (L "displayName")))], seen, nan).

(** 361-395 parseUpdateDefaultValue *)
Definition float_update_default (e : env) (p : props) (t : float_type) (specials : list (str * fspecial)) (old : spec_float)
  : res spec_float :=
  _ <- parseValidateSinglePropInstance p (L "defaultValue") false ;;
  let s := get_prop p (L "defaultValue") in
  if is_nil s then Ok old
  else v <- of_opt (float_str_to_value e specials s true) ;;
       _ <- guard (float_in_type t v) ;;
       Ok v.

(** 708-1086: the properties that give valid ranges. [None]: no range (validFullRange="false") *)
Inductive frange_prop := FFullRange | FRangeP (r : range_prop).
Definition frange_prop_name (r : frange_prop) : str :=
  match r with FFullRange => L "validFullRange" | FRangeP r => range_prop_name r end.
Definition float_range_prop (e : env) (t : float_type) (specials : list (str * fspecial)) (r : frange_prop) (s : str)
  : res (option (spec_float * spec_float)) :=
  let value allow := v <- of_opt (float_str_to_value e specials s allow) ;; _ <- guard (float_in_type t v) ;; Ok v in
  match r with
  | FFullRange => b <- of_opt (parseStrToBool s) ;; Ok (if b : bool then Some (f_min_value t, f_max_value t) else None)
  | FRangeP ValidRange =>
      '(lo, hi) <- of_opt (parseRange s) ;;
      mn <- of_opt (float_str_to_value e specials lo false) ;;
      mx <- of_opt (float_str_to_value e specials hi false) ;;
      if SFltb mx mn then Err else Ok (Some (mn, mx))
  | FRangeP ValidValue => v <- value true ;; Ok (Some (v, v))
  | FRangeP ValidMin => v <- value false ;; Ok (Some (v, f_max_value t))
  | FRangeP ValidMax => v <- value false ;; Ok (Some (f_min_value t, v))
  end.
Definition float_ranges_of_prop (e : env) (t : float_type) (specials : list (str * fspecial)) (since depr : Z)
    (n : node) (p : props) (r : frange_prop) : res (list frange) :=
  _ <- match r with FFullRange => parseValidateSinglePropInstance p (frange_prop_name r) false | _ => Ok tt end ;;
  a <- match find_prop (parseNodeProps n) (frange_prop_name r) with
       | None => Ok []
       | Some s => x <- float_range_prop e t specials r s ;;
                   Ok match x with Some (lo, hi) => [mkFRange lo hi since depr] | None => [] end
       end ;;
  cs <- mapM (fun ch =>
          s <- parseNodeValue ch false ;;
          x <- float_range_prop e t specials r s ;;
          match x with
          | None => Ok []
          | Some (lo, hi) =>
              '(sv, dv) <- parseGetAndCheckVersionsNode (e_version e) ch (since, depr) ;;
              Ok [mkFRange lo hi sv dv]
          end) (parseGetChildrenNamed n (frange_prop_name r)) ;;
  Ok (a ++ concat cs).
Definition float_new_ranges (e : env) (t : float_type) (specials : list (str * fspecial)) (since depr : Z)
    (n : node) (p : props) : res (list frange) :=
  l <- mapM (float_ranges_of_prop e t specials since depr n p)
         [FFullRange; FRangeP ValidRange; FRangeP ValidValue; FRangeP ValidMin; FRangeP ValidMax] ;;
  Ok (concat l).

(** 417-440 and 483-511. The comparators identify 0 and -0, so std::sort may order such ranges
    differently from this insertion sort; nothing below depends on it. *)
Definition flt_version (a b : frange) : bool :=
  if negb (fr_since a =? fr_since b) then fr_since a <? fr_since b
  else if negb (fr_depr a =? fr_depr b) then fr_depr a <? fr_depr b
  else if compare_less (fr_min a) (fr_min b) then true
  else if compare_less (fr_min b) (fr_min a) then false
  else compare_less (fr_max a) (fr_max b).
Definition flt_value (a b : frange) : bool :=
  if compare_less (fr_min a) (fr_min b) then true
  else if compare_less (fr_min b) (fr_min a) then false
  else if compare_less (fr_max a) (fr_max b) then true
  else if compare_less (fr_max b) (fr_max a) then false
  else if negb (fr_since a =? fr_since b) then fr_since a <? fr_since b
  else fr_depr a <? fr_depr b.
(** std::max *)
Definition sf_max (a b : spec_float) : spec_float := if SFltb a b then b else a.
(** 443-480 *)
Fixpoint fmerge_into (cur : frange) (l : list frange) : list frange :=
  match l with
  | [] => [cur]
  | x :: l' =>
      if negb (fr_since cur =? fr_since x) || negb (fr_depr cur =? fr_depr x) || is_fp_special (fr_max cur) ||
         is_fp_special (fr_min x) || compare_less (fr_max cur) (fr_min x)
      then cur :: fmerge_into x l'
      else fmerge_into (mkFRange (fr_min cur) (sf_max (fr_max cur) (fr_max x)) (fr_since cur) (fr_depr cur)) l'
  end.
Definition fmerge_ranges (l : list frange) : list frange := match l with [] => [] | x :: l' => fmerge_into x l' end.
Definition fnormalise_ranges (l : list frange) : list frange :=
  isort flt_value (fmerge_ranges (isort flt_version l)).

(** 204-219 parseImpl *)
Definition float_parse (e : env) (c : common) (p : props) (n : node) (old : option float_state) : res float_state :=
  let get {A} (f : float_state -> A) (d : A) := match old with Some o => f o | None => d end in
  t <- float_update_type p (option_map f_type old) ;;
  en <- float_update_endian e p ;;
  let len := float_length t in
  nonU <- bool_prop e p (L "nonUniqueSpecialsAllowed") (get f_nonUniqueSpecials (negb (nonunique_specials_supported e))) ;;
  '(specials, _, _) <- foldM (float_special e t nonU (c_since c) (c_deprecated c)) (parseGetChildrenNamed n (L "special"))
                          (get f_specials [], [], false) ;;
  dflt <- float_update_default e p t specials (get f_default (S754_zero false)) ;;
  vcv <- bool_prop e p (L "validCheckVersion") (get f_validCheckVersion false) ;;
  new <- float_new_ranges e t specials (c_since c) (c_deprecated c) n p ;;
  let ranges := fnormalise_ranges (get f_ranges [] ++ new) in
  units <- update_units p (get f_units (L "Unknown")) ;;
  dec <- update_display_decimals p (get f_displayDecimals 0) ;;
  Ok (mkFloat t en len dflt ranges specials units dec vcv nonU).

(** 226-230 parseIsComparableToValueImpl *)
Definition float_comparable (e : env) (s : float_state) (v : str) : bool :=
  match float_str_to_value e (f_specials s) v true with Some _ => true | None => false end.
