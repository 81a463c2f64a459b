(** Model of the named bits of generated set fields: the access code and bitName(),
    app/commsdsl2comms/src/CommsSetField.cpp 419-524, 539-678. *)
From Verif.Model Require Import Base Common Xml Units Field FieldCommon IntField SetField GenUtil GenComms CommsInt CommsSet.

(** ** Access code *)
(** 544-568: the bits which are named, in the order of their indices *)
Definition access_bits (s : set_state) : list (Z * str) := filter (fun x => fst x <? max_bits) (rev_bits s).
Definition access_mask (s : set_state) : Z := fold_left (fun m x => Z.lor m (bit_mask (fst x))) (access_bits s) 0.
(** ParseSetFieldImpl.cpp 51-72 parseIsUnique *)
Definition bits_unique (s : set_state) : bool := idx_unique (s_bits s).
(** 584; the sum is one of std::uintmax_t *)
Definition access_seq (s : set_state) : bool := bits_unique s && (Z.land (to_u64 (access_mask s + 1)) (access_mask s) =? 0).
(** 563-567, 570-581 *)
Definition deprecated_text (ge : gen_env) (s : set_state) (n : str) : str :=
  match assoc n (s_bits s) with
  | None => []
  | Some b => if genIsElementDeprecated (ge_ver ge) (b_depr b)
              then nl :: L "///          Deprecated since version " ++ dec_str (b_depr b) ++ L "." else []
  end.
(** 586-597 *)
Definition seq_templ : str :=
  L "/// @brief Provides names and generates access functions for internal bits." ++ [nl] ++
  L "/// @details See definition of @b COMMS_BITMASK_BITS_SEQ macro" ++ [nl] ++
  L "///     related to @b comms::field::BitmaskValue class from COMMS library" ++ [nl] ++
  L "///     for details." ++ [nl] ++ L "///" ++ [nl] ++
  L "///      The generated enum values and functions are:" ++ [nl] ++
  L "#^#ACCESS_DOC#$#" ++ [nl] ++ L "COMMS_BITMASK_BITS_SEQ(" ++ [nl] ++ L "    #^#NAMES#$#" ++ [nl] ++ L ");" ++ [nl].
(** 599-609 *)
Definition seq_doc (ge : gen_env) (s : set_state) (n : str) : str :=
  L "///      @li @b BitIdx_" ++ n ++ L ", @b getBitValue_" ++ n ++ L "() and @b setBitValue_" ++ n ++ L "()." ++ deprecated_text ge s n.
(** 618-638 *)
Definition own_templ : str :=
  L "/// @brief Provide names for internal bits." ++ [nl] ++
  L "/// @details See definition of @b COMMS_BITMASK_BITS macro" ++ [nl] ++
  L "///     related to @b comms::field::BitmaskValue class from COMMS library" ++ [nl] ++
  L "///     for details." ++ [nl] ++ L "///" ++ [nl] ++
  L "///      The generated enum values:" ++ [nl] ++
  L "#^#BITS_DOC#$#" ++ [nl] ++ L "COMMS_BITMASK_BITS(" ++ [nl] ++ L "    #^#BITS#$#" ++ [nl] ++ L ");" ++ [nl; nl] ++
  L "/// @brief Generates independent access functions for internal bits." ++ [nl] ++
  L "/// @details See definition of @b COMMS_BITMASK_BITS_ACCESS macro" ++ [nl] ++
  L "///     related to @b comms::field::BitmaskValue class from COMMS library" ++ [nl] ++
  L "///     for details." ++ [nl] ++ L "///" ++ [nl] ++
  L "///     The generated access functions are:" ++ [nl] ++
  L "#^#ACCESS_DOC#$#" ++ [nl] ++ L "COMMS_BITMASK_BITS_ACCESS(" ++ [nl] ++ L "    #^#NAMES#$#" ++ [nl] ++ L ");" ++ [nl].
(** 640-670 *)
Definition bits_doc (ge : gen_env) (s : set_state) (n : str) : str :=
  L "///      @li @b BitIdx_" ++ n ++ L "." ++ deprecated_text ge s n.
Definition access_doc (ge : gen_env) (s : set_state) (n : str) : str :=
  L "///      @li @b getBitValue_" ++ n ++ L "() and @b setBitValue_" ++ n ++ L "()." ++ deprecated_text ge s n.
Definition bit_number (s : set_state) (n : str) : str :=
  match assoc n (s_bits s) with Some b => n ++ L "=" ++ dec_str (b_idx b) | None => [] end.
(** 539-678 commsDefBitsAccessCodeInternal *)
Definition access_code (ge : gen_env) (s : set_state) : res str :=
  let names := map snd (access_bits s) in
  if access_seq s
  then genProcessTemplate seq_templ
         [(L "ACCESS_DOC", genStrListToString (map (seq_doc ge s) names) [nl] []);
          (L "NAMES", genStrListToString names (L "," ++ [nl]) [])] false
  else genProcessTemplate own_templ
         [(L "ACCESS_DOC", genStrListToString (map (access_doc ge s) names) [nl] []);
          (L "NAMES", genStrListToString names (L "," ++ [nl]) []);
          (L "BITS_DOC", genStrListToString (map (bits_doc ge s) names) [nl] []);
          (L "BITS", genStrListToString (map (bit_number s) names) (L "," ++ [nl]) [])] false.

(** ** bitName() *)
(** 470-483: the first bit with the index which is not deprecated *)
Fixpoint not_deprecated_bit (ver : Z) (bits : list (str * bit_info)) (k : Z) (l : list (Z * str)) : option (str * bit_info) :=
  match l with
  | [] => None
  | (j, n) :: l' =>
      match (if j =? k then assoc n bits else None) with
      | Some b => if ver <? b_depr b then Some (n, b) else not_deprecated_bit ver bits k l'
      | None => not_deprecated_bit ver bits k l'
      end
  end.
(** 436-489: the quoted text for the index [k] whose first name is [n] *)
Definition shown_bit (ge : gen_env) (s : set_state) (k : Z) (n : str) : res str :=
  match assoc n (s_bits s) with
  | None => UB
  | Some b =>
      let text (y : str * bit_info) := L """" ++ genDisplayName (b_displayName (snd y)) (fst y) ++ L """" in
      if negb (s_nonUnique s) || (genSchemaVersion (ge_ver ge) <? b_depr b) || bits_unique s then Ok (text (n, b))
      else match not_deprecated_bit (genSchemaVersion (ge_ver ge)) (s_bits s) k (rev_bits s) with
           | Some y => Ok (text y)
           | None => Ok (text (n, b))
           end
  end.
(** 421-490: the elements of the array *)
Fixpoint bit_names (ge : gen_env) (s : set_state) (next : Z) (l : list (Z * str)) : res (list str) :=
  match l with
  | [] => Ok []
  | (k, n) :: l' =>
      if k <? next then bit_names ge s next l'
      else t <- shown_bit ge s k n ;;
           rest <- bit_names ge s (k + 1) l' ;;
           Ok (repeat (L "nullptr") (Z.to_nat (k - next)) ++ t :: rest)
  end.
(** 501-509 *)
Definition bit_name_templ : str :=
  L "static const char* Map[] = {" ++ [nl] ++ L "    #^#NAMES#$#" ++ [nl] ++ L "};" ++ [nl; nl] ++
  L "static const std::size_t MapSize = std::extent<decltype(Map)>::value;" ++ [nl] ++
  L "if (MapSize <= idx) {" ++ [nl] ++ L "    return nullptr;" ++ [nl] ++ L "}" ++ [nl; nl] ++ L "return Map[idx];".
(** 492-516: the body of bitName(); the function around it and the one of the field class
    (680-700), which calls it, are not modelled *)
Definition bit_name_body (ge : gen_env) (s : set_state) : res str :=
  l <- bit_names ge s 0 (rev_bits s) ;;
  if is_nil l then Ok (L "static_cast<void>(idx);" ++ [nl] ++ L "return nullptr;")
  else genProcessTemplate bit_name_templ [(L "NAMES", genStrListToString l (L "," ++ [nl]) [])] false.
