(** Model of lib/src/parse/ParseSetFieldImpl.cpp *)
From Verif.Model Require Import Base Common Xml Units Field FieldCommon IntField.

(** 84-99 parseExtraPropsNamesImpl *)
Definition set_props : list str :=
  [L "defaultValue"; L "endian"; L "length"; L "bitLength"; L "reservedValue"; L "validCheckVersion";
   L "type"; L "nonUniqueAllowed"; L "availableLengthLimit"].

(** 275-305 parseUpdateType *)
Definition set_update_type (p : props) (old : option int_type) : res (option int_type) :=
  _ <- parseValidateSinglePropInstance p (L "type") false ;;
  match find_prop p (L "type") with
  | None => Ok old
  | Some v =>
      t <- of_opt (int_type_of v) ;;
      _ <- guard (is_unsigned t) ;;
      match old with
      | None => Ok (Some t)
      | Some o => if int_type_eqb o t then Ok old else Err
      end
  end.

(** 397-406; the index length - 1 is not checked in a release build *)
Definition set_type_map (len : Z) : res int_type :=
  if len =? 1 then Ok Uint8 else if len =? 2 then Ok Uint16
  else if (len =? 3) || (len =? 4) then Ok Uint32
  else if (5 <=? len) && (len <=? 8) then Ok Uint64
  else UB.

(** 307-419 parseUpdateLength: (type, length, bit length); 0 = not set *)
Definition set_update_length (p : props) (inBf : bool) (t : option int_type) (oldLen oldBits : Z)
  : res (int_type * Z * Z) :=
  let noType := match t with None => true | Some _ => false end in
  let mustLen := noType && (oldLen =? 0) && negb inBf in
  _ <- parseValidateSinglePropInstance p (L "length") mustLen ;;
  let maxLength := match t with Some t => max_type_length t | None => 8 end in
  let ls := get_prop p (L "length") in
  len <- (if is_nil ls then Ok (if (oldLen =? 0) && negb noType then maxLength else oldLen)
          else n <- of_opt (parseStrToUintMax ls) ;;
               if (n =? 0) || (maxLength <? n) then Err
               else if oldLen =? n then Ok oldLen
               else if negb (oldLen =? 0) then Err
               else Ok n) ;;
  let mustBits := inBf && (oldBits =? 0) && (len =? 0) in
  _ <- parseValidateSinglePropInstance p (L "bitLength") mustBits ;;
  let bs := get_prop p (L "bitLength") in
  bits <- (if is_nil bs then Ok (if oldBits =? 0 then to_u64 (len * 8) else oldBits)
           else if negb inBf then Ok (to_u64 (len * 8))
           else b <- of_opt (parseStrToUintMax bs) ;;
                if b =? 0 then Err
                else if negb (len =? 0) && (to_u64 (len * 8) <? b) then Err
                else Ok b) ;;
  let len := if (len =? 0) && negb (bits =? 0) then (bits - 1) / 8 + 1 else len in
  t <- match t with Some t => Ok t | None => set_type_map len end ;;
  Ok (t, len, bits).

(** 50-70 parseIsUnique: no two neighbours in the ordered index -> name map are equal *)
Fixpoint idx_unique (l : list (str * bit_info)) : bool :=
  match l with
  | [] => true
  | x :: l' => negb (existsb (fun y => b_idx (snd y) =? b_idx (snd x)) l') && idx_unique l'
  end.
(** 421-442 parseUpdateNonUniqueAllowed *)
Definition set_update_nonunique (e : env) (p : props) (bits : list (str * bit_info)) (old : bool) : res bool :=
  n <- bool_prop e p (L "nonUniqueAllowed") false ;;
  if is_nil (get_prop p (L "nonUniqueAllowed")) then Ok old
  else if old && negb n && negb (idx_unique bits) then Err
  else Ok n.

(** 722-735 parseStrToValue *)
Definition set_str_to_value (e : env) (s : str) : option bool :=
  match parseStrToBool s with
  | Some b => Some b
  | None => if field_refs_supported e then e_bool e s else None
  end.
(** 449-479 parseUpdateDefaultValue / parseUpdateReservedValue: no check of repetition *)
Definition set_bool (e : env) (p : props) (k : str) (old : bool) : res bool :=
  match find_prop p k with None => Ok old | Some v => of_opt (set_str_to_value e v) end.
(** 602-640: an empty text keeps the value *)
Definition set_bit_bool (e : env) (p : props) (k : str) (old : bool) : res bool :=
  if is_nil (get_prop p k) then Ok old else of_opt (set_str_to_value e (get_prop p k)).

Definition bit_props : list str :=
  [L "name"; L "idx"; L "defaultValue"; L "reservedValue"; L "reserved"; L "sinceVersion"; L "deprecated";
   L "description"; L "displayName"].
(** 672-701: agreement with the earlier definitions of the same bit *)
Definition bits_agree (new old : bit_info) : bool :=
  (b_depr old <=? b_since new) || (b_depr new <=? b_since old) ||
  (Bool.eqb (b_default new) (b_default old) && Bool.eqb (b_reserved new) (b_reserved old) &&
   Bool.eqb (b_reservedValue new) (b_reservedValue old)).
(** 490-717: one <bit> child *)
Definition set_bit (e : env) (nonUnique dflt resv : bool) (bitLength since depr : Z)
    (bits : list (str * bit_info)) (n : node) : res (list (str * bit_info)) :=
  p <- parseChildrenAsProps n bit_props true (parseNodeProps n) ;;
  _ <- single_props p [L "name"; L "idx"]
         [L "defaultValue"; L "reservedValue"; L "reserved"; L "sinceVersion"; L "deprecated"; L "description"; L "displayName"] ;;
  let name := get_prop p (L "name") in
  _ <- guard (parseIsValidName name) ;;
  _ <- guard (negb (has_key name bits)) ;;
  idx <- of_opt (parseStrToUnsigned (get_prop p (L "idx"))) ;;
  _ <- guard (idx <? bitLength) ;;
  _ <- guard (nonUnique || negb (existsb (fun x => b_idx (snd x) =? idx) bits)) ;;
  dv <- set_bit_bool e p (L "defaultValue") dflt ;;
  rs <- set_bit_bool e p (L "reserved") false ;;
  rv <- set_bit_bool e p (L "reservedValue") resv ;;
  '(s, d) <- parseGetAndCheckVersions (e_version e) p (since, depr) ;;
  _ <- guard (negb (rs && ((since <? s) || (d <? depr)))) ;;
  let info dn := mkBit idx s d dv rs rv (get_prop p (L "description")) dn in
  _ <- guard (negb nonUnique ||
              forallb (fun x => bits_agree (info []) (snd x)) (filter (fun x => b_idx (snd x) =? idx) bits)) ;;
  dn <- match find_prop p (L "displayName") with
        | None => Ok []
        | Some x => of_opt (deref_string e x)
        end ;;
  Ok (bits ++ [(name, info dn)]).

(** 117-129 parseImpl *)
Definition set_parse (e : env) (c : common) (p : props) (n : node) (old : option set_state) : res set_state :=
  let get {A} (f : set_state -> A) (d : A) := match old with Some o => f o | None => d end in
  en <- update_endian e p (option_map s_endian old) ;;
  t <- set_update_type p (get s_type None) ;;
  '(t, len, bits) <- set_update_length p (c_inBitfield c) t (get s_length 0) (get s_bitLength 0) ;;
  nonU <- set_update_nonunique e p (get s_bits []) (get s_nonUnique false) ;;
  vcv <- bool_prop e p (L "validCheckVersion") (get s_validCheckVersion false) ;;
  dflt <- set_bool e p (L "defaultValue") (get s_defaultBit false) ;;
  resv <- set_bool e p (L "reservedValue") (get s_reservedBit false) ;;
  all <- bool_prop e p (L "availableLengthLimit") (get s_availableLengthLimit false) ;;
  bs <- foldM (set_bit e nonU dflt resv bits (c_since c) (c_deprecated c)) (parseGetChildrenNamed n (L "bit"))
              (get s_bits []) ;;
  Ok (mkSet (Some t) en len bits bs nonU dflt resv vcv all).

(** 144-172 parseIsComparableToValueImpl *)
Definition set_comparable (e : env) (v : str) : bool :=
  if parseIsValidRefName v then
    match e_num e v with
    | None => false
    | Some (x, big) => negb (negb big && (x <? 0))
    end
  else match parseStrToIntMax v with
       | Some x => 0 <=? x
       | None => false
       end.
