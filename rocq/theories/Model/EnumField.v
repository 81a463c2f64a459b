(** Model of lib/src/parse/ParseEnumFieldImpl.cpp. The type, endian, length and bit
    length updates (249-391) are the same code as in ParseIntFieldImpl.cpp, as are
    parseStrToValue (652-698 / 1605-1650) and the range checks. *)
From Verif.Model Require Import Base Common Xml Units Field FieldCommon IntField.

(** 84-99 parseExtraPropsNamesImpl *)
Definition enum_props : list str :=
  [L "type"; L "defaultValue"; L "endian"; L "length"; L "bitLength"; L "nonUniqueAllowed";
   L "validCheckVersion"; L "hexAssign"; L "availableLengthLimit"].

(** 424-557: one <validValue> child; m_revValues.find(val) is a search among the values *)
Definition enum_value (e : env) (t : int_type) (nonUnique : bool) (tmin tmax since depr : Z)
    (values : list (str * named_val)) (n : node) : res (list (str * named_val)) :=
  p <- parseChildrenAsProps n named_value_props true (parseNodeProps n) ;;
  _ <- single_props p [L "name"; L "val"] [L "sinceVersion"; L "deprecated"; L "description"; L "displayName"] ;;
  let name := get_prop p (L "name") in
  _ <- guard (parseIsValidName name) ;;
  _ <- guard (negb (has_key name values)) ;;
  v <- of_opt (int_str_to_value e t values (get_prop p (L "val"))) ;;
  _ <- guard (in_limits (is_big t) tmin tmax v) ;;
  _ <- guard (nonUnique || negb (existsb (fun x => v_value (snd x) =? v) values)) ;;
  '(s, d) <- parseGetAndCheckVersions (e_version e) p (since, depr) ;;
  dn <- match find_prop p (L "displayName") with
        | None => Ok []
        | Some x => of_opt (deref_string e x)
        end ;;
  Ok (values ++ [(name, mkVal v s d (get_prop p (L "description")) dn)]).

(** 410-559 parseUpdateValues *)
Definition enum_update_values (e : env) (t : int_type) (nonUnique : bool) (tmin tmax since depr : Z)
    (old : list (str * named_val)) (n : node) : res (list (str * named_val)) :=
  match parseGetChildrenNamed n (L "validValue") with
  | [] => match old with [] => Err | _ => Ok old end
  | ns => foldM (enum_value e t nonUnique tmin tmax since depr) ns old
  end.

(** 627-645 parseUpdateHexAssign *)
Definition enum_hex_assign (e : env) (p : props) (t : int_type) (old : bool) : res bool :=
  h <- bool_prop e p (L "hexAssign") old ;;
  if is_nil (get_prop p (L "hexAssign")) then Ok h
  else if is_unsigned t then Ok h else Err.

(** 116-132 parseImpl *)
Definition enum_parse (e : env) (c : common) (p : props) (n : node) (old : option enum_state) : res enum_state :=
  let since := c_since c in
  let depr := c_deprecated c in
  let get {A} (f : enum_state -> A) (d : A) := match old with Some o => f o | None => d end in
  t <- int_update_type p (option_map en_type old) ;;
  en <- update_endian e p (option_map en_endian old) ;;
  len <- int_update_length p t (get en_length 0) ;;
  bits <- int_update_bit_length p (c_inBitfield c) t len (get en_bitLength 0) ;;
  nonU <- bool_prop e p (L "nonUniqueAllowed") (get en_nonUnique false) ;;
  vcv <- bool_prop e p (L "validCheckVersion") (get en_validCheckVersion false) ;;
  let tmin := min_type_value t in
  let tmax := max_type_value t in
  mn <- calc_min t bits ;;
  mx <- calc_max t bits ;;
  values <- enum_update_values e t nonU tmin tmax since depr (get en_values []) n ;;
  dflt <- int_update_default e p t values tmin tmax (get en_default 0) ;;
  hex <- enum_hex_assign e p t (get en_hexAssign false) ;;
  all <- bool_prop e p (L "availableLengthLimit") (get en_availableLengthLimit false) ;;
  Ok (mkEnum t en len bits tmin tmax mn mx dflt values nonU vcv hex all).

(** 156-160 parseIsComparableToValueImpl *)
Definition enum_comparable (e : env) (s : enum_state) (v : str) : bool :=
  match int_str_to_value e (en_type s) (en_values s) v with Some _ => true | None => false end.
