(** Model of the generated definition of set fields:
    app/commsdsl2comms/src/CommsSetField.cpp.  std::uintmax_t is a number below 2^64. *)
From Verif.Model Require Import Base Common Xml Units Field FieldCommon IntField SetField GenUtil GenComms CommsInt.

(** ParseBits of ParseSetField.h is a std::map from the name *)
Definition bits_ltb (a b : str * bit_info) : bool := str_ltb (fst a) (fst b).
Definition bits_map (s : set_state) : list (str * bit_info) := isort bits_ltb (s_bits s).
(** ParseRevBits: a std::multimap from the index to the name; equal indices in the order of insertion *)
Definition revb_ltb (a b : Z * str) : bool := fst a <? fst b.
Definition rev_bits (s : set_state) : list (Z * str) :=
  isort revb_ltb (map (fun x => (b_idx (snd x), fst x)) (s_bits s)).
(** 40 *)
Definition max_bits : Z := 64.
Definition ones64 : Z := 18446744073709551615.
Definition bit_mask (idx : Z) : Z := Z.shiftl 1 idx.
(** |= and &= ~ *)
Definition with_bit (b : bool) (v idx : Z) : Z := if b then Z.lor v (bit_mask idx) else Z.ldiff v (bit_mask idx).

(** 737-746, 824-833: the number of bits; parseBitLength is ParseSetFieldImpl.cpp 136-143 *)
Definition set_bit_length (c : common) (s : set_state) : Z := if c_inBitfield c then s_bitLength s else 0.
Definition used_bits (c : common) (s : set_state) : Z :=
  if set_bit_length c s =? 0 then s_length s * 8 else set_bit_length c s.
Definition length_mask (n : Z) : Z := if n <? max_bits then bit_mask n - 1 else ones64.

(** ** Options *)
(** 702-711 commsAddLengthOptInternal *)
Definition set_length_opts (c : common) (s : set_state) : list str :=
  if negb (set_bit_length c s =? 0) then [copt (L "FixedBitLength<" ++ genNumToStringU (set_bit_length c s) 0 ++ L ">")]
  else [copt (L "FixedLength<" ++ genNumToStringU (s_length s) 0 ++ L ">")].
(** 713-768 commsAddDefaultValueOptInternal *)
Definition default_step (v : Z) (x : str * bit_info) : Z :=
  if max_bits <=? b_idx (snd x) then v else with_bit (b_default (snd x)) v (b_idx (snd x)).
Definition set_default (c : common) (s : set_state) : Z :=
  Z.land (fold_left default_step (bits_map s) (if s_defaultBit s then ones64 else 0)) (length_mask (used_bits c s)).
Definition set_default_opts (c : common) (s : set_state) : list str :=
  let d := set_default c s in
  if d =? 0 then []
  else if match s_type s with Some Uint64 | Some Uintvar => true | _ => false end
  then [copt (L "DefaultBigUnsignedNumValue<" ++ genNumToStringU d 1 ++ L ">")]
  else [copt (L "DefaultNumValue<" ++ genNumToStringU d 1 ++ L ">")].
(** 133-135, 775-777 *)
Definition set_check (ge : gen_env) (s : set_state) : bool := ge_versionDependent ge && s_validCheckVersion s.
(** 779-822: mask, value, mustHandleBitsInValidFunc *)
Definition reserved_step (ge : gen_env) (c : common) (check : bool) (acc : Z * Z * bool) (x : str * bit_info) : Z * Z * bool :=
  let '(mask, value, must) := acc in
  let b := snd x in
  if max_bits <=? b_idx b then acc
  else if check && negb (genDoesElementExist (ge_ver ge) (b_since b) (b_depr b) true) then acc
  else if check && ((c_since c <? b_since b) || (b_depr b <? c_deprecated c))
  then (with_bit false mask (b_idx b), with_bit false value (b_idx b), true)
  else if negb (b_reserved b) then (with_bit false mask (b_idx b), with_bit false value (b_idx b), must)
  else (mask, with_bit (b_reservedValue b) value (b_idx b), must).
(** 770-852 commsAddReservedBitsOptInternal *)
Definition set_reserved (ge : gen_env) (c : common) (s : set_state) : Z * Z * bool :=
  let '(mask, value, must) := fold_left (reserved_step ge c (set_check ge s)) (bits_map s) (ones64, if s_reservedBit s then ones64 else 0, false) in
  let m := length_mask (used_bits c s) in
  (Z.land mask m, Z.land (Z.land value mask) m, must).
Definition set_reserved_opts (ge : gen_env) (c : common) (s : set_state) : list str :=
  let '(mask, value, must) := set_reserved ge c s in
  (if must : bool then [copt (L "VersionStorage")] else []) ++
  (if mask =? 0 then []
   else [copt (L "BitmaskReservedBits<" ++ genNumToStringU mask 1 ++ L ", " ++ genNumToStringU value 1 ++ L ">")]).
(** 526-537 commsDefFieldOptsInternal, with 854-859 commsAddAvailableLengthLimitOptInternal *)
Definition set_def_opts (ge : gen_env) (x : field_settings) (c : common) (s : set_state) : list str :=
  add_if (s_availableLengthLimit s) (copt (L "AvailableLengthLimit"))
    (comms_def_options x c ++ set_length_opts c s ++ set_default_opts c s ++ set_reserved_opts ge c s).

(** ** valid(), 128-360 commsDefValidFuncBodyImpl *)
(** 141-149, 167-175: bitsToCheck, a std::map from the versions to mask and value *)
Definition key_ltb (a b : Z * Z) : bool := (fst a <? fst b) || ((fst a =? fst b) && (snd a <? snd b)).
Fixpoint add_check (key : Z * Z) (idx : Z) (rv : bool) (l : list (Z * Z * (Z * Z))) : list (Z * Z * (Z * Z)) :=
  let set (m : Z * Z) := (with_bit true (fst m) idx, if rv then with_bit true (snd m) idx else snd m) in
  match l with
  | [] => [(key, set (0, 0))]
  | (k, m) :: l' =>
      if key_ltb key k then (key, set (0, 0)) :: l
      else if key_ltb k key then (k, m) :: add_check key idx rv l'
      else (k, set m) :: l'
  end.
Record checks := mkChecks { ck_map : list (Z * Z * (Z * Z)); ck_all : Z; ck_rep : Z; ck_bits : list Z }.
(** 155-184; an index of 64 or more makes the shift undefined *)
Definition limited (c : common) (b : bit_info) : bool := negb ((b_since b <=? c_since c) && (c_deprecated c <=? b_depr b)).
Definition check_step (ge : gen_env) (c : common) (acc : checks) (x : str * bit_info) : res checks :=
  let b := snd x in
  if negb (limited c b) then Ok acc
  else if negb (genDoesElementExist (ge_ver ge) (b_since b) (b_depr b) false) then Ok acc
  else if max_bits <=? b_idx b then UB
  else
    let m := bit_mask (b_idx b) in
    let rep := negb (Z.land (ck_all acc) m =? 0) && (Z.land (ck_rep acc) m =? 0) in
    Ok (mkChecks (add_check (b_since b, b_depr b) (b_idx b) (b_reservedValue b) (ck_map acc))
          (Z.lor (ck_all acc) m)
          (if rep then Z.lor (ck_rep acc) m else ck_rep acc)
          (if rep then ck_bits acc ++ [b_idx b] else ck_bits acc)).
(** 186-191 *)
Definition without_repeated (rep : Z) (e : Z * Z * (Z * Z)) : Z * Z * (Z * Z) :=
  (fst e, (Z.ldiff (fst (snd e)) rep, Z.ldiff (snd (snd e)) rep)).
(** 199-215: the templates *)
Definition set_both_templ : str :=
  L "if (((Base::getVersion() < #^#FROM_VERSION#$#) || (#^#UNTIL_VERSION#$# <= Base::getVersion())) && " ++ [nl] ++
  L "    ((Base::getValue() & #^#BITS_MASK#$#) != #^#VALUE_MASK#$#)) {" ++ [nl] ++ L "    return false;" ++ [nl] ++ L "}" ++ [nl].
Definition set_from_templ : str :=
  L "if ((Base::getVersion() < #^#FROM_VERSION#$#) &&" ++ [nl] ++
  L "    ((Base::getValue() & #^#BITS_MASK#$#) != #^#VALUE_MASK#$#)) {" ++ [nl] ++ L "    return false;" ++ [nl] ++ L "}" ++ [nl].
Definition set_until_templ : str :=
  L "if ((#^#UNTIL_VERSION#$# <= Base::getVersion()) &&" ++ [nl] ++
  L "    ((Base::getValue() & #^#BITS_MASK#$#) != #^#VALUE_MASK#$#)) {" ++ [nl] ++ L "    return false;" ++ [nl] ++ L "}" ++ [nl].
(** 217-232: the text for one element of the map *)
Definition key_text (e : Z * Z * (Z * Z)) : res str :=
  let '((since, depr), (mask, value)) := e in
  genProcessTemplate
    (if since =? 0 then set_until_templ else if not_deprecated <=? depr then set_from_templ else set_both_templ)
    [(L "BITS_MASK", genNumToStringU mask 1); (L "VALUE_MASK", genNumToStringU value 1);
     (L "FROM_VERSION", genNumToStringU since 0); (L "UNTIL_VERSION", genNumToStringU depr 0)] false.
(** 235-260: the versions of all bits with this index *)
Definition versions_of (s : set_state) (idx : Z) : list (Z * Z) :=
  isort key_ltb (map (fun x => (b_since (snd x), b_depr (snd x))) (filter (fun x => b_idx (snd x) =? idx) (s_bits s))).
(** 262-272: the gaps between them *)
Fixpoint gaps (prev : Z) (l : list (Z * Z)) : list (Z * Z) * Z :=
  match l with
  | [] => ([], prev)
  | (since, depr) :: l' => let '(g, p) := gaps depr l' in ((prev, since) :: g, p)
  end.
Definition all_gaps (depr : Z) (l : list (Z * Z)) : list (Z * Z) :=
  let '(g, p) := gaps 0 l in if p <? depr then g ++ [(p, depr)] else g.
(** 274-296 *)
Definition no_range (r : Z * Z) : bool := (snd r =? 0) || (fst r =? snd r).
Fixpoint take_next (this : Z * Z) (l : list (Z * Z)) : (Z * Z) * list (Z * Z) :=
  match l with
  | [] => (this, [])
  | n :: l' =>
      if no_range n then let '(t, r) := take_next this l' in (t, n :: r)
      else if snd this <? fst n then (this, l)
      else let '(t, r) := take_next (fst this, snd n) l' in (t, (fst n, 0) :: r)
  end.
Fixpoint unify_gaps (n : nat) (l : list (Z * Z)) : list (Z * Z) :=
  match n, l with
  | S n', t :: l' =>
      if no_range t then t :: unify_gaps n' l'
      else let '(t', l'') := take_next t l' in t' :: unify_gaps n' l''
  | _, _ => []
  end.
(** 298-315 *)
Definition gap_templ : str :=
  L "if ((#^#FROM_VERSION#$# <= Base::getVersion()) &&" ++ [nl] ++
  L "    (Base::getVersion() < #^#UNTIL_VERSION#$#)) {" ++ [nl] ++ L "    return false;" ++ [nl] ++ L "}".
Definition gap_text (r : Z * Z) : res str :=
  genProcessTemplate gap_templ [(L "FROM_VERSION", genNumToStringU (fst r) 0); (L "UNTIL_VERSION", genNumToStringU (snd r) 0)] false.
(** 317-342: the text for one repeated index, if there is anything to check *)
Definition repeated_templ : str :=
  L "if ((Base::getValue() & #^#RESERVED_MASK#$#) != #^#RESERVED_VALUE#$#) {" ++ [nl] ++ L "    #^#CONDITIONS#$#" ++ [nl] ++ L "}" ++ [nl].
Definition repeated_gaps (c : common) (s : set_state) (idx : Z) : list (Z * Z) :=
  let l := all_gaps (c_deprecated c) (versions_of s idx) in
  filter (fun r => negb (no_range r)) (unify_gaps (length l) l).
Definition repeated_text (c : common) (s : set_state) (idx : Z) : res (list str) :=
  match filter (fun x => b_idx (snd x) =? idx) (s_bits s) with
  | [] => UB
  | x :: _ =>
      gs <- mapM gap_text (repeated_gaps c s idx) ;;
      if is_nil gs then Ok []
      else t <- genProcessTemplate repeated_templ
             [(L "RESERVED_MASK", genNumToStringU (bit_mask idx) 1);
              (L "RESERVED_VALUE", genNumToStringU (if b_reservedValue (snd x) then bit_mask idx else 0) 1);
              (L "CONDITIONS", genStrListToString gs [nl; nl] [])] false ;;
           Ok [t]
  end.
Definition set_checks (ge : gen_env) (c : common) (s : set_state) : res checks :=
  foldM (check_step ge c) (bits_map s) (mkChecks [] 0 0 []).
(** 186-197: what is left to check *)
Definition checked_keys (k : checks) : list (Z * Z * (Z * Z)) :=
  filter (fun e => negb (fst (snd e) =? 0))
    (if ck_rep k =? 0 then ck_map k else map (without_repeated (ck_rep k)) (ck_map k)).
(** 344-360 *)
Definition set_valid_templ : str :=
  L "if (!Base::valid()) {" ++ [nl] ++ L "    return false;" ++ [nl] ++ L "}" ++ [nl; nl] ++
  L "#^#CONDITIONS#$#" ++ [nl] ++ L "return true;" ++ [nl].
Definition set_valid_body (ge : gen_env) (c : common) (s : set_state) : res str :=
  if negb (set_check ge s) then Ok []
  else
    k <- set_checks ge c s ;;
    l1 <- mapM key_text (checked_keys k) ;;
    l2 <- mapM (repeated_text c s) (ck_bits k) ;;
    let conditions := l1 ++ concat l2 in
    if is_nil conditions then Ok []
    else genProcessTemplate set_valid_templ [(L "CONDITIONS", genStrListToString conditions [nl] [])] false.
