(** Model of the parts of lib/src/parse/ParseFieldImpl.cpp shared by every kind of
    field: properties, common attributes, versions. *)
From Verif.Model Require Import Base Common Xml Units Field.

(** What the parsing of a field reads from the protocol object.
    [e_find], [e_num], ...: ParseProtocolImpl::parseFindField / parseStrToNumeric /
    parseStrToBool / parseStrToString / parseStrToData with checkRef = true, on the
    schemas parsed so far (Model/Protocol.v). *)
Record env := mkEnv {
  e_version : Z;      (* version of the current schema *)
  e_dsl : Z;          (* dslVersion of the current schema, 0 = not specified *)
  e_endian : endian;  (* default endian of the current schema *)
  e_find : str -> option field;
  e_num : str -> option (Z * bool);
  e_enum : str -> option Z; (* parseStrToEnumValue, checkRef = false *)
  e_bool : str -> option bool;
  e_str : str -> option str;
  e_data : str -> option (list Z);
  e_fp : str -> option spec_float;
  e_stod : str -> option spec_float; (* std::stod(text): not modelled, theorems hold for every function *)
  e_iface : str -> res (list ref_info) (* ParseSchemaImpl::parseProcessInterfaceFieldRef on the current schema *) }.

(** ParseProtocolImpl.cpp 321-329 parseIsFeatureSupported *)
Definition supports (e : env) (minDsl : Z) : bool := (e_dsl e =? 0) || (minDsl <=? e_dsl e).
(** ParseProtocolImpl.cpp 331-339 parseIsFeatureDeprecated *)
Definition deprecates (e : env) (deprDsl : Z) : bool := negb (e_dsl e =? 0) && (deprDsl <=? e_dsl e).
(** ParseProtocolImpl.cpp 343-366 *)
Definition prop_versions : list (str * Z) := [
  (L "validateMinLength", 4); (L "defaultValidValue", 4); (L "availableLengthLimit", 4);
  (L "copyCodeFrom", 5); (L "semanticLayerType", 5); (L "checksumFrom", 5); (L "checksumUntil", 5);
  (L "termSuffix", 5); (L "missingOnReadFail", 5); (L "missingOnInvalid", 5); (L "reuseCode", 5);
  (L "construct", 6); (L "readCond", 6); (L "validCond", 6); (L "constructAsReadCond", 6);
  (L "constructAsValidCond", 6); (L "fixedValue", 7); (L "copyConstructFrom", 7);
  (L "copyReadCondFrom", 7); (L "copyValidCondFrom", 7); (L "seekField", 8); (L "escField", 8)]%string.
(** ParseProtocolImpl.cpp 341-374 parseIsPropertySupported *)
Definition prop_supported (e : env) (name : str) : bool :=
  match assoc name prop_versions with Some v => supports e v | None => true end.
(** ParseProtocolImpl.cpp 394-507 *)
Definition field_refs_supported (e : env) : bool := supports e 2.
Definition sem_length_supported (e : env) : bool := supports e 2.
Definition nonunique_specials_supported (e : env) : bool := supports e 2.
Definition sem_ref_inheritance_supported (e : env) : bool := supports e 2.
Definition alias_supported (e : env) : bool := supports e 3.
Definition copy_from_bundle_supported (e : env) : bool := supports e 4.
Definition override_type_supported (e : env) : bool := supports e 4.
Definition nonint_sem_length_supported (e : env) : bool := supports e 5.
Definition member_replace_supported (e : env) : bool := supports e 5.
Definition multi_schema_supported (e : env) : bool := supports e 5.
Definition interface_refs_supported (e : env) : bool := supports e 6.
Definition foi_in_message_supported (e : env) : bool := supports e 6.
Definition size_cond_supported (e : env) : bool := supports e 6.
Definition exists_cond_supported (e : env) : bool := supports e 6.
Definition valid_value_in_string_supported (e : env) : bool := supports e 7.
Definition validate_min_length_supported (e : env) : bool := supports e 7.
Definition message_reuse_supported (e : env) : bool := supports e 7.
Definition valid_cond_in_composite_supported (e : env) : bool := supports e 7.

(** ParseProtocolImpl.cpp 284-319 parseStrToStringValue *)
Fixpoint all_backslash_before (s : str) : option bool :=
  match s with
  | [] => None                         (* no '^' in the text *)
  | c :: s' => if ch_eqb c c_extref then Some true
               else match all_backslash_before s' with
                    | None => None
                    | Some b => Some (ch_eqb c "\"%char && b)
                    end
  end.
Definition deref_string (e : env) (s : str) : option str :=
  if is_nil s || negb (field_refs_supported e) then Some s
  else match s with
  | c :: r =>
      if ch_eqb c c_extref then e_str e r
      else match all_backslash_before s with
           | Some true => Some r
           | _ => Some s
           end
  | [] => Some s
  end.

(** The object the field belongs to, ParseObject.h. [PNamespace] also stands for a null parent. *)
Inductive parent_kind := PNamespace | PField (k : kind) | PMessage | PInterface | PLayer.
Record ctx := mkCtx { x_parent : parent_kind; x_since : Z; x_depr : Z }.
Definition in_bitfield (x : ctx) : bool := match x_parent x with PField KBitfield => true | _ => false end.

(** ParseFieldImpl.cpp 689-716 parseValidateAndUpdateStringPropValue *)
Definition string_prop (e : env) (p : props) (k : str) (mustHave deref : bool) (old : str) : res str :=
  _ <- parseValidateSinglePropInstance p k mustHave ;;
  match find_prop p k with
  | None => Ok old
  | Some v => if deref then of_opt (deref_string e v) else Ok v
  end.
(** ParseFieldImpl.cpp 736-761 parseValidateAndUpdateBoolPropValue *)
Definition bool_prop (e : env) (p : props) (k : str) (old : bool) : res bool :=
  _ <- parseValidateSinglePropInstance p k false ;;
  match find_prop p k with
  | None => Ok old
  | Some v => if negb (prop_supported e k) then Ok old else of_opt (parseStrToBool v)
  end.
(** ParseFieldImpl.cpp 763-798 parseValidateAndUpdateOverrideTypePropValue *)
Definition override_of (s : str) : option override :=
  let l := to_lower s in
  if is_nil l || str_eqb l (L "any") then Some OvrAny
  else if str_eqb l (L "replace") then Some OvrReplace
  else if str_eqb l (L "extend") then Some OvrExtend
  else if str_eqb l (L "none") then Some OvrNone else None.
Definition override_prop (e : env) (p : props) (k : str) (old : override) : res override :=
  _ <- parseValidateSinglePropInstance p k false ;;
  match find_prop p k with
  | None => Ok OvrAny
  | Some v => if negb (override_type_supported e) then Ok old else of_opt (override_of v)
  end.
Definition override_names : list str :=
  [L "valueOverride"; L "readOverride"; L "writeOverride"; L "refreshOverride";
   L "lengthOverride"; L "validOverride"; L "nameOverride"].
Fixpoint override_props (e : env) (p : props) (ks : list str) (olds : list override) : res (list override) :=
  match ks with
  | [] => Ok []
  | k :: ks' =>
      o <- override_prop e p k (hd OvrAny olds) ;;
      os <- override_props e p ks' (tl olds) ;;
      Ok (o :: os)
  end.

(** a property as parse_common.cpp 1282-1293 parseGetStringProp reads it *)
Definition get_prop (p : props) (k : str) : str :=
  match find_prop p k with Some v => v | None => [] end.

(** ParseFieldImpl.cpp 800-831 *)
Definition common_props : list str :=
  [L "name"; L "displayName"; L "description"; L "sinceVersion"; L "deprecated"; L "removed";
   L "reuse"; L "semanticType"; L "pseudo"; L "fixedValue"; L "displayReadOnly"; L "displayHidden";
   L "customizable"; L "failOnInvalid"; L "forceGen"] ++ override_names ++
  [L "copyCodeFrom"; L "reuseCode"; L "validateMinLength"].

(** ParseFieldImpl.cpp 71-99: attributes, then child elements as properties.
    [extra]: parseExtraPropsNamesImpl, [possible]: parseExtraPossiblePropsNamesImpl *)
Definition field_props (n : node) (extra possible : list str) : res props :=
  p <- parseChildrenAsProps n common_props true (parseNodeProps n) ;;
  p <- parseChildrenAsProps n extra true p ;;
  parseChildrenAsProps n possible false p.

(** ParseFieldImpl.h ParseReusableState defaults, ParseObject.h defaults *)
Definition init_common (inBitfield : bool) : common :=
  mkCommon [] [] [] SemNone (repeat OvrAny 7) [] (-1) false false false false false
           0 not_deprecated false inBitfield.

(** ParseFieldImpl.cpp 1041-1098 parseCheckReuse, up to parseReuseImpl: the reused
    field and the common state to start from. The parent stays that of the new field.
    [c_copyCodeFrom] is the reuse text when reuseCode is set. *)
Definition check_reuse (e : env) (x : ctx) (k : kind) (p : props) : res (common * option field) :=
  _ <- parseValidateSinglePropInstance p (L "reuse") false ;;
  match find_prop p (L "reuse") with
  | None => Ok (init_common (in_bitfield x), None)
  | Some v =>
      f <- of_opt (e_find e v) ;;
      _ <- guard (kind_eqb (f_kind f) k) ;;
      let c := f_common f in
      _ <- parseValidateSinglePropInstance p (L "reuseCode") false ;;
      copy <- bool_prop e p (L "reuseCode") false ;;
      Ok (mkCommon (c_name c) (c_displayName c) (c_description c) (c_sem c) (c_ovr c)
            (if copy then v else []) (c_validateMinLength c)
            (c_pseudo c) (c_fixedValue c) (c_customizable c) (c_failOnInvalid c) (c_forceGen c)
            (c_since c) (c_deprecated c) (c_removed c) (in_bitfield x), Some f)
  end.

(** ParseFieldImpl.cpp 1169-1248 parseUpdateVersions: (since, deprecated, removed) *)
Definition update_versions (e : env) (x : ctx) (p : props) : res (Z * Z * bool) :=
  _ <- parseValidateSinglePropInstance p (L "sinceVersion") false ;;
  _ <- parseValidateSinglePropInstance p (L "deprecated") false ;;
  _ <- parseValidateSinglePropInstance p (L "removed") false ;;
  let parent := match x_parent x with PNamespace => (0, not_deprecated) | _ => (x_since x, x_depr x) end in
  '(since, depr) <- parseGetAndCheckVersions (e_version e) p parent ;;
  let member := match x_parent x with PField _ | PMessage => true | _ => false end in
  removed <- match find_prop p (L "removed") with
             | None => Ok false
             | Some v => of_opt (parseStrToBool v)
             end ;;
  Ok (if member then since else 0, if member then depr else not_deprecated, removed).

(** ParseFieldImpl.cpp 1250-1288 parseUpdateSemanticType *)
Definition sem_of (s : str) : option sem_type :=
  if is_nil s then Some SemNone
  else let l := to_lower s in
       if str_eqb l (L "none") then Some SemNone
       else if str_eqb l (L "version") then Some SemVersion
       else if str_eqb l (L "messageid") then Some SemMessageId
       else if str_eqb l (L "length") then Some SemLength
       else None.
Definition update_sem (p : props) (old : sem_type) : res sem_type :=
  _ <- parseValidateSinglePropInstance p (L "semanticType") false ;;
  match find_prop p (L "semanticType") with
  | None => Ok old
  | Some v => of_opt (sem_of v)
  end.

(** ParseFieldImpl.cpp 1362-1390 parseUpdateCopyOverrideCodeFrom *)
Definition update_copy_code (e : env) (p : props) (old : str) : res str :=
  _ <- parseValidateSinglePropInstance p (L "copyCodeFrom") false ;;
  match find_prop p (L "copyCodeFrom") with
  | None => Ok old
  | Some v =>
      if negb (prop_supported e (L "copyCodeFrom")) then Ok old
      else _ <- of_opt (e_find e v) ;; Ok v
  end.

(** int <- unsigned conversion (two's complement) *)
Definition to_s32 (z : Z) : Z := if two32 / 2 <=? z then z - two32 else z.
(** ParseFieldImpl.cpp 1392-1417 parseUpdateValidateMinLength *)
Definition update_validate_min_length (e : env) (p : props) (old : Z) : res Z :=
  _ <- parseValidateSinglePropInstance p (L "validateMinLength") false ;;
  match find_prop p (L "validateMinLength") with
  | None => Ok old
  | Some v =>
      if negb (validate_min_length_supported e) then Ok old
      else x <- of_opt (parseStrToUnsigned v) ;; Ok (to_s32 x)
  end.

(** ParseFieldImpl.cpp 104-124: the common attributes, from the state [c] left by
    parseCheckReuse *)
Definition update_common (e : env) (x : ctx) (p : props) (c : common) : res common :=
  name <- string_prop e p (L "name") false false (c_name c) ;;
  dname <- string_prop e p (L "displayName") false true (c_displayName c) ;;
  descr <- string_prop e p (L "description") false true (c_description c) ;;
  '(since, depr, removed) <- update_versions e x p ;;
  sem <- update_sem p (c_sem c) ;;
  pseudo <- bool_prop e p (L "pseudo") (c_pseudo c) ;;
  fixed <- bool_prop e p (L "fixedValue") (c_fixedValue c) ;;
  custom <- bool_prop e p (L "customizable") (c_customizable c) ;;
  foi <- bool_prop e p (L "failOnInvalid") (c_failOnInvalid c) ;;
  force <- bool_prop e p (L "forceGen") (c_forceGen c) ;;
  ovr <- override_props e p override_names (c_ovr c) ;;
  copy <- update_copy_code e p (c_copyCodeFrom c) ;;
  vml <- update_validate_min_length e p (c_validateMinLength c) ;;
  Ok (mkCommon name dname descr sem ovr copy vml pseudo fixed custom foi force
               since depr removed (c_inBitfield c)).

(** parseVerifySemanticTypeImpl: Int.cpp 479-491, Enum.cpp 221-224, Bitfield.cpp 212-221,
    Bundle.cpp 260-269, String/Data/List/Optional/Variant/Set/Float: Field.cpp 645-648,
    Ref.cpp 211-215 *)
Fixpoint sem_allowed (e : env) (f : field) (t : sem_type) : bool :=
  match t with
  | SemNone => true
  | _ =>
      match f with
      | FInt _ _ => match t with SemVersion => true | SemLength => sem_length_supported e | _ => false end
      | FEnum _ _ => match t with SemMessageId => true | _ => false end
      | FBitfield _ _ _ _ | FBundle _ _ _ _ =>
          match t with SemLength => sem_length_supported e && nonint_sem_length_supported e | _ => false end
      | FRef _ _ g => sem_allowed e g t
      | _ => false
      end
  end.

(** ParseFieldImpl.cpp 134-138: parseVerifySemanticType (309-355), parseVerifyName (1532-1547),
    parseVerifyMinLength (366-381) *)
Definition verify_field (e : env) (f : field) : res unit :=
  let c := f_common f in
  _ <- guard (sem_allowed e f (c_sem c)) ;;
  _ <- guard (parseIsValidName (c_name c)) ;;
  guard ((c_validateMinLength c <? 0) || (to_u32 (c_validateMinLength c) =? min_length f)).

(** ** Helpers of the leaf kinds *)
(** std::map insertion / find by key on the association lists *)
Definition has_key {A} (k : str) (l : list (str * A)) : bool :=
  match assoc k l with Some _ => true | None => false end.

(** comparison as the C++ code does it: on uintmax_t for big unsigned types *)
Definition as_cmp (big : bool) (v : Z) : Z := if big then to_u64 v else v.
Definition in_limits (big : bool) (lo hi v : Z) : bool :=
  (as_cmp big lo <=? as_cmp big v) && (as_cmp big v <=? as_cmp big hi).
