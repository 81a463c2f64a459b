(** Names, versions, namespaces and C++ types of the generated code:
    lib/src/gen/comms.cpp and the version arithmetic of lib/src/gen/GenSchema.cpp. *)
From Verif.Model Require Import Base Common Units Field IntField GenUtil.
Local Open Scope Z_scope.
Local Open Scope list_scope.
Local Open Scope bool_scope.

(** genClassName, comms.cpp 292-300: the first letter in upper case. *)
Definition genClassName (name : str) : str :=
  match name with [] => [] | c :: r => toupper c :: r end.
(** genAccessName, comms.cpp 302-310: the first letter in lower case. *)
Definition genAccessName (name : str) : str :=
  match name with [] => [] | c :: r => tolower c :: r end.

(** std::unique: of each run of equal elements only the first stays. *)
Fixpoint unique (l : list str) : list str :=
  match l with
  | [] => []
  | x :: l' =>
      match unique l' with
      | y :: r => if str_eqb x y then x :: r else x :: y :: r
      | [] => [x]
      end
  end.
(** genPrepareIncludeStatement, comms.cpp 870-895. *)
Definition include_line (i : str) : str :=
  match i with
  | [] => []
  | c :: _ =>
      if ch_eqb c "#" then i
      else if ch_eqb c "<" then L "#include " ++ i
      else L "#include " ++ [chr 34] ++ i ++ [chr 34]
  end.
Definition genPrepareIncludeStatement (l : list str) : list str :=
  map include_line (unique (isort str_ltb l)).

(** The version settings of GenSchema: the version of the parsed schema,
    --force-ver and --min-remote-version (both read as unsigned). *)
Record gen_versions := mkGV { gv_parsed : Z; gv_forced : option Z; gv_min_remote : Z }.
(** static_cast<int>(unsigned), GenSchema.cpp 384-387 and GenGenerator.cpp 141-144. *)
Definition to_int (v : Z) : Z := if 2147483648 <=? v then v - 4294967296 else v.
(** m_forcedSchemaVersion: -1 by default, GenSchema.cpp 513. *)
Definition forced_version (g : gen_versions) : Z :=
  match gv_forced g with None => -1 | Some v => to_int v end.
(** genSchemaVersion, GenSchema.cpp 98-105. *)
Definition genSchemaVersion (g : gen_versions) : Z :=
  if 0 <=? forced_version g then forced_version g else gv_parsed g.
(** genPrepare, GenSchema.cpp 280-297 (only the two version checks;
    MaxDslVersion, GenSchema.cpp 40). *)
Definition max_dsl_version : Z := 8.
Definition genPrepare_versions (g : gen_versions) (dslVersion : Z) : res unit :=
  _ <- guard (dslVersion <=? max_dsl_version) ;;
  guard (negb ((0 <=? forced_version g) && (gv_parsed g <? forced_version g))).
(** genDoesElementExist, GenSchema.cpp 424-438. *)
Definition genDoesElementExist (g : gen_versions) (since depr : Z) (removed : bool) : bool :=
  if genSchemaVersion g <? since then false
  else if removed && (depr <=? gv_min_remote g) then false
  else true.
(** genIsElementOptional, GenSchema.cpp 440-454; parseNotYetDeprecated is the
    largest unsigned. *)
Definition genIsElementOptional (g : gen_versions) (since depr : Z) (removed : bool) : bool :=
  if gv_min_remote g <? since then true
  else if removed && (depr <? 4294967295) then true
  else false.
(** genIsElementDeprecated, GenSchema.cpp 786-789. *)
Definition genIsElementDeprecated (g : gen_versions) (depr : Z) : bool := depr <? genSchemaVersion g.

(** An element of the generator with its ancestors up to (not including) the
    schema: innermost first.  GenElem::GenType, include/commsdsl/gen/GenElem.h. *)
Inductive elem_type := ENamespace | EMessage | EField | EInterface | EFrame | ELayer.
Definition elem_path := list (elem_type * str).

(** The version facts of an element used by genSinceVersionOf. *)
Record velem := mkVE { ve_type : elem_type; ve_since : Z; ve_depr : Z; ve_removed : bool }.
(** genSinceVersionOf, comms.cpp 1067-1082; an empty list is the schema. *)
Fixpoint genSinceVersionOf (p : list velem) : Z :=
  match p with
  | [] => 0
  | e :: p' =>
      match ve_type e with
      | EMessage => ve_since e
      | EField => Z.max (genSinceVersionOf p') (ve_since e)
      | _ => 0
      end
  end.
(** genIsVersionOptionalField, comms.cpp 1036-1065. *)
Definition genIsVersionOptionalField (g : gen_versions) (dependent : bool) (p : list velem) : bool :=
  match p with
  | [] => false
  | f :: parents =>
      match ve_type f with
      | EField =>
          if negb dependent then false
          else if negb (genIsElementOptional g (ve_since f) (ve_depr f) (ve_removed f)) then false
          else if genSinceVersionOf parents <? ve_since f then true
          else (ve_depr f <? 4294967295) && ve_removed f
      | _ => false
      end
  end.

(** The namespace an element type adds, comms.cpp 775-792 / 823-840 (strings.cpp 95-117). *)
Definition parent_is_namespace (p : elem_path) : bool :=
  match p with (ENamespace, _) :: _ => true | _ => false end.
Definition type_namespaces (t : elem_type) (parents : elem_path) : list str :=
  match t with
  | EField => if parent_is_namespace parents then [L "field"] else []
  | EMessage => [L "message"]
  | EFrame => [L "frame"]
  | ELayer => [L "layer"]
  | _ => []
  end.
Definition open_ns (s : str) : str := L "namespace " ++ s ++ [nl] ++ L "{" ++ [nl; nl].
Definition close_ns (s : str) : str := L "} // namespace " ++ s ++ [nl; nl].
Definition opt_name (s : str) : list str := if is_nil s then [] else [s].

(** genNamespaceBeginFor, comms.cpp 744-803: [top] is genGetTopNamespace,
    [main] genMainNamespace.  An element without parent has undefined
    behaviour there; an empty path stands for the schema itself, whose
    contribution is made by its child. *)
Fixpoint genNamespaceBeginFor (top main : str) (p : elem_path) : str :=
  match p with
  | [] => concat (map open_ns (opt_name top)) ++ open_ns main
  | (t, name) :: parents =>
      genNamespaceBeginFor top main parents ++
      concat (map open_ns (type_namespaces t parents)) ++
      match t with
      | ENamespace => concat (map open_ns (opt_name name))
      | _ => []
      end
  end.
(** genNamespaceEndFor, comms.cpp 805-868.  A namespace directly in the schema
    closes the main and top namespaces itself; any other element there is
    handled by the call on the schema, which has no parent (undefined), and is
    not produced by the generator. *)
Fixpoint genNamespaceEndFor (top main : str) (p : elem_path) : str :=
  match p with
  | [] => close_ns main ++ concat (map close_ns (opt_name top))
  | (t, name) :: parents =>
      match t with
      | ENamespace => concat (map close_ns (opt_name name)) ++ genNamespaceEndFor top main parents
      | _ => concat (map close_ns (type_namespaces t parents)) ++ genNamespaceEndFor top main parents
      end
  end.

(** genAddElemNamespaceScopeInternal, comms.cpp 78-99. *)
Definition elem_ns_scope (t : elem_type) (parents : elem_path) : option str :=
  match t with
  | EField => if parent_is_namespace parents then Some (L "field") else None
  | EMessage => Some (L "message")
  | EFrame => Some (L "frame")
  | _ => None
  end.
(** genAddFieldScopeSuffixInternal 101-126 and
    genAddNonFieldElemScopeSuffixInternal 128-137. *)
Definition field_suffix (t : elem_type) (leaf : bool) : str :=
  match t with
  | EMessage | EInterface => L "Fields"
  | ELayer => L "Members"
  | EFrame => L "Layers"
  | EField => if leaf then [] else L "Members"
  | ENamespace => []
  end.
Definition other_suffix (t leafType : elem_type) : str :=
  match t with
  | EFrame => match leafType with EFrame => [] | _ => L "Layers" end
  | _ => []
  end.
(** The components genScopeForInternal (comms.cpp 155-223) puts in front of the
    separators, with addElement = true; [leaf] is the type of the innermost
    element, [inner] holds for it.  [classes] is sep == "::" (the scope of a
    class), otherwise the components of a file path. *)
Fixpoint scope_parts (classes : bool) (main : list str) (leafType : elem_type) (inner : bool) (p : elem_path)
  : list str :=
  match p with
  | [] => main
  | (t, name) :: parents =>
      scope_parts classes main leafType false parents ++
      match t with
      | ENamespace => opt_name name
      | _ =>
          let cls := genClassName name in
          let cls := match t with EInterface => if is_nil cls then L "Message" else cls | _ => cls end in
          let field_scope := classes && match leafType with EField => true | _ => false end in
          match elem_ns_scope t parents with Some s => [s] | None => [] end ++
          [cls ++ (if field_scope then field_suffix t inner else other_suffix t leafType)]
      end
  end.
Fixpoint join_parts (sep : str) (l : list str) : str :=
  match l with
  | [] => []
  | [x] => x
  | x :: l' => x ++ sep ++ join_parts sep l'
  end.
Definition elem_leaf (p : elem_path) : elem_type := match p with (t, _) :: _ => t | [] => ENamespace end.
(** genScopeFor (337-344), main namespace included, and genRelHeaderPathFor
    (479-482): the same with "/" and ".h". *)
Definition genScopeFor (main : str) (p : elem_path) : str :=
  join_parts (L "::") (scope_parts true (opt_name main) (elem_leaf p) true p).
Definition genRelHeaderPathFor (main : str) (p : elem_path) : str :=
  join_parts (L "/") (scope_parts false (opt_name main) (elem_leaf p) true p) ++ L ".h".

(** genCppIntTypeFor, comms.cpp 897-943.  [var_base] is TypeMap[base + offset]
    for the variable length types. *)
Definition var_base (len : Z) (narrow mid wide : str) : str :=
  if len <=? 2 then narrow else if len <=? 4 then mid else wide.
Definition genCppIntTypeFor (t : int_type) (len : Z) : str :=
  match t with
  | Int8 => L "std::int8_t" | Uint8 => L "std::uint8_t"
  | Int16 => L "std::int16_t" | Uint16 => L "std::uint16_t"
  | Int32 => L "std::int32_t" | Uint32 => L "std::uint32_t"
  | Int64 => L "std::int64_t" | Uint64 => L "std::uint64_t"
  | Intvar => var_base len (L "std::int16_t") (L "std::int32_t") (L "std::int64_t")
  | Uintvar => var_base len (L "std::uint16_t") (L "std::uint32_t") (L "std::uint64_t")
  end.
(** genCppIntChangedSignTypeFor, comms.cpp 945-963: position 5 is behind "std::". *)
Definition change_sign (s : str) : str :=
  if Nat.ltb (length s) 6 then s
  else match skipn 5 s with
       | c :: rest => if ch_eqb c "u" then firstn 5 s ++ rest else firstn 5 s ++ "u"%char :: c :: rest
       | [] => s
       end.
Definition genCppIntChangedSignTypeFor (t : int_type) (len : Z) : str := change_sign (genCppIntTypeFor t len).
(** genCppFloatTypeFor, comms.cpp 965-984. *)
Definition genCppFloatTypeFor (t : float_type) : str :=
  match t with Float32 => L "float" | Float64 => L "double" end.
(** genParseEndianToOpt, comms.cpp 1085-1104. *)
Definition genParseEndianToOpt (e : endian) : str :=
  match e with Little => L "comms::option::def::LittleEndian" | Big => L "comms::option::def::BigEndian" end.
(** UnitsMap of genParseUnitsToOpt, comms.cpp 1106-1163, next to the enumerators of
    lib/include/commsdsl/parse/ParseUnits.h in the same order. *)
Definition units_options : list (str * str) := [
  (L "Unknown", L "");
  (L "Nanoseconds", L "comms::option::def::UnitsNanoseconds");
  (L "Microseconds", L "comms::option::def::UnitsMicroseconds");
  (L "Milliseconds", L "comms::option::def::UnitsMilliseconds");
  (L "Seconds", L "comms::option::def::UnitsSeconds");
  (L "Minutes", L "comms::option::def::UnitsMinutes");
  (L "Hours", L "comms::option::def::UnitsHours");
  (L "Days", L "comms::option::def::UnitsDays");
  (L "Weeks", L "comms::option::def::UnitsWeeks");
  (L "Nanometers", L "comms::option::def::UnitsNanometers");
  (L "Micrometers", L "comms::option::def::UnitsMicrometers");
  (L "Millimeters", L "comms::option::def::UnitsMillimeters");
  (L "Centimeters", L "comms::option::def::UnitsCentimeters");
  (L "Meters", L "comms::option::def::UnitsMeters");
  (L "Kilometers", L "comms::option::def::UnitsKilometers");
  (L "NanometersPerSecond", L "comms::option::def::UnitsNanometersPerSecond");
  (L "MicrometersPerSecond", L "comms::option::def::UnitsMicrometersPerSecond");
  (L "MillimetersPerSecond", L "comms::option::def::UnitsMillimetersPerSecond");
  (L "CentimetersPerSecond", L "comms::option::def::UnitsCentimetersPerSecond");
  (L "MetersPerSecond", L "comms::option::def::UnitsMetersPerSecond");
  (L "KilometersPerSecond", L "comms::option::def::UnitsKilometersPerSecond");
  (L "KilometersPerHour", L "comms::option::def::UnitsKilometersPerHour");
  (L "Hertz", L "comms::option::def::UnitsHertz");
  (L "KiloHertz", L "comms::option::def::UnitsKilohertz");
  (L "MegaHertz", L "comms::option::def::UnitsMegahertz");
  (L "GigaHertz", L "comms::option::def::UnitsGigahertz");
  (L "Degrees", L "comms::option::def::UnitsDegrees");
  (L "Radians", L "comms::option::def::UnitsRadians");
  (L "Nanoamps", L "comms::option::def::UnitsNanoamps");
  (L "Microamps", L "comms::option::def::UnitsMicroamps");
  (L "Milliamps", L "comms::option::def::UnitsMilliamps");
  (L "Amps", L "comms::option::def::UnitsAmps");
  (L "Kiloamps", L "comms::option::def::UnitsKiloamps");
  (L "Nanovolts", L "comms::option::def::UnitsNanovolts");
  (L "Microvolts", L "comms::option::def::UnitsMicrovolts");
  (L "Millivolts", L "comms::option::def::UnitsMillivolts");
  (L "Volts", L "comms::option::def::UnitsVolts");
  (L "Kilovolts", L "comms::option::def::UnitsKilovolts");
  (L "Bytes", L "comms::option::def::UnitsBytes");
  (L "Kilobytes", L "comms::option::def::UnitsKilobytes");
  (L "Megabytes", L "comms::option::def::UnitsMegabytes");
  (L "Gigabytes", L "comms::option::def::UnitsGigabytes");
  (L "Terabytes", L "comms::option::def::UnitsTerabytes")].
Definition genParseUnitsToOpt (u : str) : str := match assoc u units_options with Some o => o | None => [] end.

(** genAddLength, comms.cpp 1173-1180. *)
Definition genAddLength (a b : Z) : Z := if uint_max - a <=? b then uint_max else a + b.
