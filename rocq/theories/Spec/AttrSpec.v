(** How the attributes of a field element are to be read, and where their values come from when they are
    not written. *)
From Verif.Model Require Import Base Common Xml Units Field FieldCommon.
From Coq Require Import Sorted.
From Verif.Spec Require Import Texts Ints Versions XmlSpec HeaderSpec DslSpec.

(** ** Where a value comes from *)
(** the field the element [n] reuses *)
Inductive reuses (e : env) (n : node) : option field -> Prop :=
| reuses_nothing : supplied n (T "reuse") [] -> reuses e n None
| reuses_field t g : supplied n (T "reuse") [t] -> e_find e t = Some g -> reuses e n (Some g).
(** the value of the property [k] of [n]: what is written, read by [reads], else [dflt] *)
Inductive given {A : Type} (n : node) (k : txt) (reads : txt -> A -> Prop) (dflt a : A) : Prop :=
| given_written v : supplied n k [v] -> reads v a -> given n k reads dflt a
| given_default : supplied n k [] -> a = dflt -> given n k reads dflt a.
(** a property written as "" counts as not written *)
Definition if_not_empty {A : Type} (reads : txt -> A -> Prop) (dflt : A) (v : txt) (a : A) : Prop :=
  v = [] /\ a = dflt \/ v <> [] /\ reads v a.
(** a property that earlier versions of the DSL don't know is ignored there *)
Definition if_available {A : Type} (m : Z) (e : env) (reads : txt -> A -> Prop) (dflt : A) (v : txt) (a : A) : Prop :=
  available m (e_dsl e) /\ reads v a \/ ~ available m (e_dsl e) /\ a = dflt.

(** ** Readings *)
Definition as_written (v a : txt) : Prop := a = v.
(** a text may refer to that of a field: ^name; \^ at the beginning stands for ^ *)
Inductive text_read (e : env) : txt -> txt -> Prop :=
| tx_old v : ~ available 2 (e_dsl e) -> text_read e v v
| tx_ref r a : available 2 (e_dsl e) -> e_str e r = Some a -> text_read e ("^"%char :: r) a
| tx_escape k r : available 2 (e_dsl e) ->
    text_read e ("\"%char :: repeat "\"%char k ++ "^"%char :: r) (repeat "\"%char k ++ "^"%char :: r)
| tx_plain v : (forall k r, v <> repeat "\"%char k ++ "^"%char :: r) -> text_read e v v.
Definition override_text (v : txt) (o : override) : Prop :=
  match o with
  | OvrAny => v = [] \/ caseless v (T "any")
  | OvrReplace => caseless v (T "replace")
  | OvrExtend => caseless v (T "extend")
  | OvrNone => caseless v (T "none")
  end.
Definition sem_text (v : txt) (t : sem_type) : Prop :=
  match t with
  | SemNone => v = [] \/ caseless v (T "none")
  | SemVersion => caseless v (T "version")
  | SemMessageId => caseless v (T "messageid")
  | SemLength => caseless v (T "length")
  end.
(** the text is read as an unsigned 32 bit number *)
Definition unsigned32_text (v : txt) (z : Z) : Prop := exists y, denotes v y /\ Z.abs y < 2 ^ 64 /\ z = y mod 2 ^ 32.
(** as an unsigned 32 bit number, stored as a signed one *)
Definition int32_text (v : txt) (z : Z) : Prop :=
  exists y, unsigned32_text v y /\ (y < 2 ^ 31 /\ z = y \/ 2 ^ 31 <= y /\ z = y - 2 ^ 32).
Definition signed64_text (v : txt) (z : Z) : Prop := denotes v z /\ - 2 ^ 63 <= z < 2 ^ 63.
(** "n" or "n/d" *)
Inductive ratio_text (v : txt) : Z * Z -> Prop :=
| ratio_whole n : ~ In "/"%char v -> signed64_text v n -> n <> 0 -> ratio_text v (n, 1)
| ratio_of a b n d : v = a ++ "/"%char :: b -> ~ In "/"%char a -> ~ In "/"%char b -> a <> [] -> b <> [] ->
    signed64_text a n -> signed64_text b d -> n <> 0 -> d <> 0 -> ratio_text v (n, d).
Definition type_name (t : int_type) : txt :=
  match t with
  | Int8 => T "int8" | Uint8 => T "uint8" | Int16 => T "int16" | Uint16 => T "uint16" | Int32 => T "int32"
  | Uint32 => T "uint32" | Int64 => T "int64" | Uint64 => T "uint64" | Intvar => T "intvar" | Uintvar => T "uintvar"
  end.
Definition int_type_text (v : txt) (t : int_type) : Prop := caseless v (type_name t).
Definition float_type_text (v : txt) (t : float_type) : Prop :=
  caseless v (match t with Float32 => T "float" | Float64 => T "double" end).
Definition mode_text (v : txt) (m : opt_mode) : Prop :=
  exists w, caseless v w /\
    In w (match m with
          | Tentative => [T "tentative"; T "tent"; T "t"]
          | Missing => [T "missing"; T "miss"; T "m"]
          | Exists => [T "exists"; T "exist"; T "e"]
          end).
(** the type of a field: what is written; a reused field already has one and what is written must not differ *)
Definition type_given {A : Type} (n : node) (reads : txt -> A -> Prop) (old : option A) (t : A) : Prop :=
  (forall o, old = Some o -> t = o) /\
  ((exists v, supplied n (T "type") [v] /\ reads v t) \/ supplied n (T "type") [] /\ old = Some t).

(** ** Units *)
Definition with_plural (w : txt) : list txt := [w; w ++ T "s"].
Definition one_and_more (ws : list string) : list txt := concat (map (fun w => with_plural (T w)) ws).
Definition metric (sym pre : string) : list txt :=
  (T sym ++ T "m") :: map (app (T pre)) (one_and_more ["meter"; "metre"]%string).
Definition speed (sym pre unit : string) : list txt :=
  map (fun w => T pre ++ w ++ T "/" ++ T unit) (one_and_more ["meter"; "metre"]%string).
Definition per_second (sym pre : string) : list txt :=
  (T sym ++ T "m/s") :: (T sym ++ T "mps") :: speed sym pre "second".
Definition scaled (sym pre : string) (short : string) (long : list string) : list txt :=
  (T sym ++ T short) :: map (app (T pre)) (one_and_more long).
Definition unit_texts : list (txt * list txt) := [
  (T "Unknown", [[]]);
  (T "Nanoseconds", T "ns" :: one_and_more ["nanosec"; "nanosecond"]);
  (T "Microseconds", T "us" :: one_and_more ["microsec"; "microsecond"]);
  (T "Milliseconds", T "ms" :: one_and_more ["millisec"; "millisecond"]);
  (T "Seconds", T "s" :: one_and_more ["sec"; "second"]);
  (T "Minutes", one_and_more ["min"; "minute"]);
  (T "Hours", T "h" :: one_and_more ["hour"]);
  (T "Days", T "d" :: one_and_more ["day"]);
  (T "Weeks", T "w" :: one_and_more ["week"]);
  (T "Nanometers", metric "n" "nano"); (T "Micrometers", metric "u" "micro");
  (T "Millimeters", metric "m" "milli"); (T "Centimeters", metric "c" "centi");
  (T "Meters", metric "" ""); (T "Kilometers", metric "k" "kilo");
  (T "NanometersPerSecond", per_second "n" "nano"); (T "MicrometersPerSecond", per_second "u" "micro");
  (T "MillimetersPerSecond", per_second "m" "milli"); (T "CentimetersPerSecond", per_second "c" "centi");
  (T "MetersPerSecond", per_second "" ""); (T "KilometersPerSecond", T "kps" :: per_second "k" "kilo");
  (T "KilometersPerHour", T "km/h" :: T "kmph" :: T "kph" :: speed "k" "kilo" "hour");
  (T "Hertz", [T "hz"; T "hertz"]); (T "KiloHertz", [T "khz"; T "kilohertz"]);
  (T "MegaHertz", [T "mhz"; T "megahertz"]); (T "GigaHertz", [T "ghz"; T "gigahertz"]);
  (T "Degrees", T "deg" :: one_and_more ["degree"]); (T "Radians", T "rad" :: one_and_more ["radian"]);
  (T "Nanoamps", scaled "n" "nano" "a" ["amp"; "ampere"]); (T "Microamps", scaled "u" "micro" "a" ["amp"; "ampere"]);
  (T "Milliamps", scaled "m" "milli" "a" ["amp"; "ampere"]); (T "Amps", scaled "" "" "a" ["amp"; "ampere"]);
  (T "Kiloamps", scaled "k" "kilo" "a" ["amp"; "ampere"]);
  (T "Nanovolts", scaled "n" "nano" "v" ["volt"]); (T "Microvolts", scaled "u" "micro" "v" ["volt"]);
  (T "Millivolts", scaled "m" "milli" "v" ["volt"]); (T "Volts", scaled "" "" "v" ["volt"]);
  (T "Kilovolts", scaled "k" "kilo" "v" ["volt"]);
  (T "Bytes", scaled "" "" "b" ["byte"]); (T "Kilobytes", scaled "k" "kilo" "b" ["byte"]);
  (T "Megabytes", scaled "m" "mega" "b" ["byte"]); (T "Gigabytes", scaled "g" "giga" "b" ["byte"]);
  (T "Terabytes", scaled "t" "tera" "b" ["byte"])]%string.
(** [w] is [v] without its spaces and tabs *)
Inductive without_gaps : txt -> txt -> Prop :=
| wg_nil : without_gaps [] []
| wg_gap c v w : sp_tab c -> without_gaps v w -> without_gaps (c :: v) w
| wg_char c v w : ~ sp_tab c -> without_gaps v w -> without_gaps (c :: v) (c :: w).
Definition units_text (v u : txt) : Prop :=
  exists w t l, without_gaps v w /\ caseless w t /\ In t l /\ In (u, l) unit_texts.

(** ** Attributes of every field *)
Definition inherit {A : Type} (old : option field) (get : common -> A) (d : A) : A :=
  match old with Some g => get (f_common g) | None => d end.
Definition override_properties : list txt :=
  [T "valueOverride"; T "readOverride"; T "writeOverride"; T "refreshOverride"; T "lengthOverride"; T "validOverride"; T "nameOverride"].
(** where the code of a field is copied from unless copyCodeFrom says: from the reused field if reuseCode is set *)
Inductive copied_code (e : env) (n : node) : txt -> Prop :=
| cc_none : supplied n (T "reuse") [] -> copied_code e n []
| cc_reuse t (code : bool) : supplied n (T "reuse") [t] -> given n (T "reuseCode") (if_available 5 e bool_text false) false code ->
    copied_code e n (if code then t else []).
(** the attributes [c] of the element [n] that reuses [old]; the versions are dealt with elsewhere *)
Record common_given (e : env) (n : node) (old : option field) (c : common) : Prop := {
  cg_name : given n (T "name") as_written (inherit old c_name []) (c_name c);
  cg_displayName : given n (T "displayName") (text_read e) (inherit old c_displayName []) (c_displayName c);
  cg_description : given n (T "description") (text_read e) (inherit old c_description []) (c_description c);
  cg_removed : given n (T "removed") bool_text false (c_removed c);
  cg_sem : given n (T "semanticType") sem_text (inherit old c_sem SemNone) (c_sem c);
  cg_pseudo : given n (T "pseudo") bool_text (inherit old c_pseudo false) (c_pseudo c);
  cg_fixed : given n (T "fixedValue") (if_available 7 e bool_text (inherit old c_fixedValue false)) (inherit old c_fixedValue false) (c_fixedValue c);
  cg_custom : given n (T "customizable") bool_text (inherit old c_customizable false) (c_customizable c);
  cg_foi : given n (T "failOnInvalid") bool_text (inherit old c_failOnInvalid false) (c_failOnInvalid c);
  cg_force : given n (T "forceGen") bool_text (inherit old c_forceGen false) (c_forceGen c);
  cg_min : given n (T "validateMinLength") (if_available 7 e int32_text (inherit old c_validateMinLength (-1)))
             (inherit old c_validateMinLength (-1)) (c_validateMinLength c);
  cg_ovr_all : length (c_ovr c) = 7%nat;
  (** an override that is not written is "any", whatever is reused *)
  cg_ovr : forall i k, nth_error override_properties i = Some k ->
     given n k (if_available 4 e override_text (nth i (inherit old c_ovr []) OvrAny)) OvrAny (nth i (c_ovr c) OvrAny);
  cg_copy : exists d, copied_code e n d /\
     given n (T "copyCodeFrom") (if_available 5 e (fun v a => a = v /\ e_find e v <> None) d) d (c_copyCodeFrom c) }.

(** ** Attributes of the kinds of fields *)
Definition of_int (old : option field) : option int_state := match old with Some (FInt _ s) => Some s | _ => None end.
Definition of_enum (old : option field) : option enum_state := match old with Some (FEnum _ s) => Some s | _ => None end.
Definition of_set (old : option field) : option set_state := match old with Some (FSet _ s) => Some s | _ => None end.
Definition of_float (old : option field) : option float_state := match old with Some (FFloat _ s) => Some s | _ => None end.
Definition kept {S A : Type} (old : option S) (get : S -> A) (d : A) : A := match old with Some s => get s | None => d end.
Record int_given (e : env) (n : node) (old : option int_state) (s : int_state) : Prop := {
  ig_type : type_given n int_type_text (option_map i_type old) (i_type s);
  ig_endian : given n (T "endian") (if_not_empty endian_text (kept old i_endian (e_endian e))) (kept old i_endian (e_endian e)) (i_endian s);
  ig_serOffset : given n (T "serOffset") (if_not_empty signed64_text (kept old i_serOffset 0)) (kept old i_serOffset 0) (i_serOffset s);
  ig_scaling : given n (T "scaling") (if_not_empty ratio_text (kept old i_scaling (1, 1))) (kept old i_scaling (1, 1)) (i_scaling s);
  ig_units : given n (T "units") units_text (kept old i_units (T "Unknown")) (i_units s);
  ig_decimals : given n (T "displayDecimals") unsigned32_text (kept old i_displayDecimals 0) (i_displayDecimals s);
  ig_offset : given n (T "displayOffset") signed64_text (kept old i_displayOffset 0) (i_displayOffset s);
  ig_check : given n (T "validCheckVersion") bool_text (kept old i_validCheckVersion false) (i_validCheckVersion s);
  ig_signExt : given n (T "signExt") bool_text (kept old i_signExt true) (i_signExt s);
  ig_unique : exists d : bool, (d = true <-> ~ available 2 (e_dsl e)) /\
    given n (T "nonUniqueSpecialsAllowed") bool_text (kept old i_nonUniqueSpecials d) (i_nonUniqueSpecials s);
  ig_limit : given n (T "availableLengthLimit") (if_available 4 e bool_text (kept old i_availableLengthLimit false))
               (kept old i_availableLengthLimit false) (i_availableLengthLimit s) }.
Record enum_given (e : env) (n : node) (old : option enum_state) (s : enum_state) : Prop := {
  eg_type : type_given n int_type_text (option_map en_type old) (en_type s);
  eg_endian : given n (T "endian") (if_not_empty endian_text (kept old en_endian (e_endian e))) (kept old en_endian (e_endian e)) (en_endian s);
  eg_unique : given n (T "nonUniqueAllowed") bool_text (kept old en_nonUnique false) (en_nonUnique s);
  eg_check : given n (T "validCheckVersion") bool_text (kept old en_validCheckVersion false) (en_validCheckVersion s);
  (** hexAssign is only for unsigned types *)
  eg_hex : given n (T "hexAssign") bool_text (kept old en_hexAssign false) (en_hexAssign s) /\
           (supplied n (T "hexAssign") [] \/ In (en_type s) [Uint8; Uint16; Uint32; Uint64; Uintvar]);
  eg_limit : given n (T "availableLengthLimit") (if_available 4 e bool_text (kept old en_availableLengthLimit false))
               (kept old en_availableLengthLimit false) (en_availableLengthLimit s) }.
(** a boolean, or a reference to one *)
Definition bit_read (e : env) (v : txt) (b : bool) : Prop :=
  bool_text v b \/ (forall b, ~ bool_text v b) /\ available 2 (e_dsl e) /\ e_bool e v = Some b.
(** what a property that may be written more than once is taken from *)
Definition first_given {A : Type} (n : node) (k : txt) (reads : txt -> A -> Prop) (dflt a : A) : Prop :=
  supplied n k [] /\ a = dflt \/ exists v vs, supplied n k (v :: vs) /\ reads v a.
Record set_given (e : env) (n : node) (old : option set_state) (s : set_state) : Prop := {
  sg_endian : given n (T "endian") (if_not_empty endian_text (kept old s_endian (e_endian e))) (kept old s_endian (e_endian e)) (s_endian s);
  sg_unique : given n (T "nonUniqueAllowed") bool_text (kept old s_nonUnique false) (s_nonUnique s);
  sg_check : given n (T "validCheckVersion") bool_text (kept old s_validCheckVersion false) (s_validCheckVersion s);
  sg_default : first_given n (T "defaultValue") (bit_read e) (kept old s_defaultBit false) (s_defaultBit s);
  sg_reserved : first_given n (T "reservedValue") (bit_read e) (kept old s_reservedBit false) (s_reservedBit s);
  sg_limit : given n (T "availableLengthLimit") (if_available 4 e bool_text (kept old s_availableLengthLimit false))
               (kept old s_availableLengthLimit false) (s_availableLengthLimit s) }.
Record float_given (e : env) (n : node) (old : option float_state) (s : float_state) : Prop := {
  fg_type : type_given n float_type_text (option_map f_type old) (f_type s);
  (** the endian of a reused field is not kept *)
  fg_endian : given n (T "endian") (if_not_empty endian_text (e_endian e)) (e_endian e) (f_endian s);
  fg_units : given n (T "units") units_text (kept old f_units (T "Unknown")) (f_units s);
  fg_decimals : given n (T "displayDecimals") unsigned32_text (kept old f_displayDecimals 0) (f_displayDecimals s);
  fg_check : given n (T "validCheckVersion") bool_text (kept old f_validCheckVersion false) (f_validCheckVersion s);
  fg_unique : exists d : bool, (d = true <-> ~ available 2 (e_dsl e)) /\
    given n (T "nonUniqueSpecialsAllowed") bool_text (kept old f_nonUniqueSpecials d) (f_nonUniqueSpecials s) }.

(** ** Strings and raw data *)
Definition of_string (old : option field) : option string_state := match old with Some (FString _ s _) => Some s | _ => None end.
Definition of_data (old : option field) : option data_state := match old with Some (FData _ s _) => Some s | _ => None end.
(** a value listed as valid, and the versions it is valid in; [since], [depr]: those of the field *)
Inductive listed_value {A : Type} (e : env) (n : node) (reads : txt -> A -> Prop) (since depr : Z) : valid_value A -> Prop :=
| lv_default v a : supplied n (T "defaultValidValue") [v] -> reads v a -> listed_value e n reads since depr (mkVV a since depr)
| lv_attr raw l v a : attrs_called (T "validValue") (n_attrs n) (raw :: l) -> trimmed raw v -> reads v a ->
    listed_value e n reads since depr (mkVV a since depr)
| lv_child ats ch v a ss ds sv dv : In (Elem (T "validValue") ats ch) (n_children n) -> child_value (Elem (T "validValue") ats ch) v -> reads v a ->
    supplied (Elem (T "validValue") ats ch) (T "sinceVersion") ss -> supplied (Elem (T "validValue") ats ch) (T "deprecated") ds ->
    version_text (hd_error ss) since sv -> version_text (hd_error ds) depr dv -> consistent_versions (e_version e) since depr sv dv ->
    listed_value e n reads since depr (mkVV a sv dv).
(** lexicographic order *)
Inductive lex_le {A : Type} (rank : A -> Z) : list A -> list A -> Prop :=
| ll_nil l : lex_le rank [] l
| ll_less a b l r : rank a < rank b -> lex_le rank (a :: l) (b :: r)
| ll_same a b l r : rank a = rank b -> lex_le rank l r -> lex_le rank (a :: l) (b :: r).
Definition char_rank (c : ascii) : Z := Z.of_N (N_of_ascii c).
Record values_given {A : Type} (e : env) (n : node) (c : common) (reads : txt -> list A -> Prop) (rank : A -> Z)
    (dflt0 : list A) (valid0 : list (valid_value (list A))) (dflt : list A) (valid : list (valid_value (list A))) : Prop := {
  vg_default : exists d, given n (T "defaultValue") reads dflt0 d /\ given n (T "defaultValidValue") (if_available 7 e reads d) d dflt;
  vg_valid : forall v, In v valid <-> In v valid0 \/ available 7 (e_dsl e) /\ listed_value e n reads (c_since c) (c_deprecated c) v;
  vg_sorted : StronglySorted (fun v w => lex_le rank (vv_value v) (vv_value w)) valid }.
Definition length_text (v : txt) (z : Z) : Prop := unsigned32_text v z /\ z <> 0.
Record string_given (e : env) (n : node) (c : common) (old : option string_state) (s : string_state) : Prop := {
  stg_encoding : given n (T "encoding") as_written (kept old st_encoding []) (st_encoding s);
  stg_length : given n (T "length") length_text (kept old st_length 0) (st_length s);
  stg_zero : given n (T "zeroTermSuffix") bool_text (kept old st_zeroSuffix false) (st_zeroSuffix s);
  stg_values : values_given e n c (text_read e) char_rank (kept old st_default []) (kept old st_valid []) (st_default s) (st_valid s) }.
(** pairs of hexadecimal digits *)
Inductive hex_pairs : txt -> list Z -> Prop :=
| hp_nil : hex_pairs [] []
| hp_byte a b x y v l : is_digit 16 a x -> is_digit 16 b y -> hex_pairs v l -> hex_pairs (a :: b :: v) (x * 16 + y :: l).
Inductive without_spaces : txt -> txt -> Prop :=
| ws_nil : without_spaces [] []
| ws_space v w : without_spaces v w -> without_spaces (" "%char :: v) w
| ws_char c v w : c <> " "%char -> without_spaces v w -> without_spaces (c :: v) (c :: w).
(** bytes written in hexadecimal, or ^name: those of a field *)
Inductive bytes_read (e : env) : txt -> list Z -> Prop :=
| br_ref r l : available 2 (e_dsl e) -> e_data e r = Some l -> bytes_read e ("^"%char :: r) l
| br_hex v w l : without_spaces v w -> hex_pairs w l -> bytes_read e v l.
Record data_given (e : env) (n : node) (c : common) (old : option data_state) (s : data_state) : Prop := {
  dg_length : given n (T "length") length_text (kept old d_length 0) (d_length s);
  dg_values : values_given e n c (bytes_read e) (fun b => b) (kept old d_default []) (kept old d_valid []) (d_default s) (d_valid s) }.

(** ** Composite fields *)
Definition of_list (old : option field) : option list_state := match old with Some (FList _ s _ _ _ _ _) => Some s | _ => None end.
Definition of_opt_field (old : option field) : option opt_state := match old with Some (FOptional _ s _ _ _) => Some s | _ => None end.
Definition of_bitfield (old : option field) : option endian := match old with Some (FBitfield _ en _ _) => Some en | _ => None end.
Definition of_variant (old : option field) : option (option Z) := match old with Some (FVariant _ d _) => Some d | _ => None end.
Record list_given (e : env) (n : node) (old : option list_state) (s : list_state) : Prop := {
  lg_count : given n (T "count") length_text (kept old l_count 0) (l_count s);
  lg_fixed : given n (T "elemFixedLength") bool_text (kept old l_elemFixedLength false) (l_elemFixedLength s) }.
Record optional_given (e : env) (n : node) (old : option opt_state) (s : opt_state) : Prop := {
  og_mode : given n (T "defaultMode") mode_text (kept old o_mode Tentative) (o_mode s);
  og_fail : given n (T "missingOnReadFail") (if_available 5 e bool_text (kept old o_missingOnReadFail false)) (kept old o_missingOnReadFail false) (o_missingOnReadFail s);
  og_invalid : given n (T "missingOnInvalid") (if_available 5 e bool_text (kept old o_missingOnInvalid false)) (kept old o_missingOnInvalid false) (o_missingOnInvalid s) }.
Inductive index_text (e : env) (v : txt) : Z -> Prop :=
| it_value z : reference_text v -> e_enum e v = Some z -> index_text e v z
| it_number z : ~ reference_text v -> signed64_text v z -> index_text e v z.
(** the default member of a variant: its name, or its index - a number or a value of an enum -, none if it is negative *)
Inductive member_text (e : env) (ms : list field) (v : txt) : option Z -> Prop :=
| mt_name i m : identifier v -> nth_error ms i = Some m -> f_name m = v -> (forall j m', (j < i)%nat -> nth_error ms j = Some m' -> f_name m' <> v) ->
    member_text e ms v (Some (Z.of_nat i))
| mt_index z : ~ identifier v -> index_text e v z -> 0 <= z < Z.of_nat (length ms) -> member_text e ms v (Some z)
| mt_none z : ~ identifier v -> index_text e v z -> z < 0 -> member_text e ms v None.
Definition variant_given (e : env) (n : node) (ms : list field) (old : option (option Z)) (d : option Z) : Prop :=
  given n (T "defaultMember") (if_not_empty (member_text e ms) (kept old (fun x => x) None)) (kept old (fun x => x) None) d.
Definition bitfield_given (e : env) (n : node) (old : option endian) (en : endian) : Prop :=
  given n (T "endian") (if_not_empty endian_text (kept old (fun x => x) (e_endian e))) (kept old (fun x => x) (e_endian e)) en.
(** a <ref> takes its name, display name and semantic type from the field it refers to where it has none itself, nor from the field it
    reuses; [c]: before, [c']: after *)
Record named_after (e : env) (t c c' : common) : Prop := {
  na_name : c_name c <> [] /\ c_name c' = c_name c \/ c_name c = [] /\ c_name c' = c_name t;
  na_displayName : c_displayName c <> [] /\ c_displayName c' = c_displayName c \/ c_displayName c = [] /\ c_displayName c' = c_displayName t;
  na_sem : c_sem c' = c_sem t /\ c_sem c = SemNone /\ c_sem t <> SemMessageId /\ available 2 (e_dsl e) \/
           c_sem c' = c_sem c /\ (c_sem c <> SemNone \/ c_sem t = SemMessageId \/ ~ available 2 (e_dsl e));
  na_rest : c_description c' = c_description c /\ c_ovr c' = c_ovr c /\ c_copyCodeFrom c' = c_copyCodeFrom c /\
    c_validateMinLength c' = c_validateMinLength c /\ c_pseudo c' = c_pseudo c /\ c_fixedValue c' = c_fixedValue c /\
    c_customizable c' = c_customizable c /\ c_failOnInvalid c' = c_failOnInvalid c /\ c_forceGen c' = c_forceGen c /\ c_removed c' = c_removed c }.

(** ** Which kinds of fields may have which semantic type *)
Inductive may_mean (e : env) : field -> sem_type -> Prop :=
| mm_none f : may_mean e f SemNone
| mm_version c s : may_mean e (FInt c s) SemVersion
| mm_int_length c s : available 2 (e_dsl e) -> may_mean e (FInt c s) SemLength
| mm_id c s : may_mean e (FEnum c s) SemMessageId
| mm_composite_length f : f_kind f = KBitfield \/ f_kind f = KBundle -> available 5 (e_dsl e) -> may_mean e f SemLength
| mm_ref c b g t : may_mean e g t -> may_mean e (FRef c b g) t.

(** ** How much a string, raw data or list takes: at most one of these ways is used *)
Definition at_most_one (Ps : list Prop) : Prop :=
  forall i j P Q, nth_error Ps i = Some P -> nth_error Ps j = Some Q -> P -> Q -> i = j.
(** [det]: name of the sibling field; [pre]: a field *)
Definition has_side (det : txt) (pre : option (bool * field)) : Prop := det <> [] \/ pre <> None.
Definition one_extent (f : field) : Prop :=
  match f with
  | FString _ s pre => at_most_one [st_length s <> 0; pre <> None; st_zeroSuffix s = true] /\ (st_detached s <> [] -> pre = None)
  | FData _ s pre => at_most_one [d_length s <> 0; pre <> None] /\ (d_detached s <> [] -> pre = None)
  | FList _ s _ cnt len elen term =>
      at_most_one [l_count s <> 0; has_side (l_detCount s) cnt; has_side (l_detLength s) len; has_side (l_detTerm s) term] /\
      (l_detCount s <> [] -> cnt = None) /\ (l_detLength s <> [] -> len = None) /\ (l_detElemLength s <> [] -> elen = None) /\
      (l_detTerm s <> [] -> term = None)
  | _ => True
  end.
