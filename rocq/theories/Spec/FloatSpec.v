(** Specification of <float> fields (C55). A double is NaN, an infinity or a multiple of
    2^-1074, the smallest positive double; zero has no sign here. *)
From Verif.Model Require Import Base Common Xml Units Field FieldCommon IntField FloatField.
From Verif.Spec Require Import Texts Ints Versions HeaderSpec.

Inductive dbl := DNaN | DInf (negative : bool) | DNum (n : Z).
Definition double_of (x : spec_float) : dbl :=
  match x with
  | S754_nan => DNaN
  | S754_infinity s => DInf s
  | S754_zero _ => DNum 0
  | S754_finite s m e => DNum ((if s then Z.neg m else Z.pos m) * 2 ^ (e + 1074))
  end.
(** a number as the IEEE 754 format binary64 represents it *)
Definition binary64 (x : spec_float) : Prop := valid_binary 53 1024 x = true.
Definition dle (a b : dbl) : Prop :=
  match a, b with
  | DNaN, _ | _, DNaN => False
  | DInf true, _ | _, DInf false => True
  | DNum x, DNum y => x <= y
  | DNum _, DInf true | DInf false, DNum _ | DInf false, DInf true => False
  end.
Definition dlt (a b : dbl) : Prop := dle a b /\ ~ dle b a.
(** the largest finite value of the type *)
Definition float_limit (t : float_type) : Z :=
  match t with Float32 => (2 ^ 24 - 1) * 2 ^ 104 * 2 ^ 1074 | Float64 => (2 ^ 53 - 1) * 2 ^ 971 * 2 ^ 1074 end.
Definition fits (t : float_type) (d : dbl) : Prop :=
  match d with DNum n => - float_limit t <= n <= float_limit t | _ => True end.

(** texts "nan", "inf", "-inf" in any case *)
Inductive special_text : txt -> dbl -> Prop :=
| spt_nan s : caseless s (T "nan") -> special_text s DNaN
| spt_inf s : caseless s (T "inf") -> special_text s (DInf false)
| spt_neg s : caseless s (T "-inf") -> special_text s (DInf true).
(** the meaning of a text given for a value; numbers are left to std::stod, which
    gets the text in lower case *)
Definition fvalues (l : list (str * fspecial)) : list (txt * spec_float) := map (fun x => (fst x, fs_value (snd x))) l.
Inductive float_text (e : env) (specials : list (txt * spec_float)) (allow : bool) (s : txt) : spec_float -> Prop :=
| ft_fp v : allow = true -> special_text s (double_of v) -> float_text e specials allow s v
| ft_name v : (allow = true -> forall d, ~ special_text s d) -> identifier s -> In (s, v) specials -> float_text e specials allow s v
| ft_ref v : (allow = true -> forall d, ~ special_text s d) -> ~ In s (map fst specials) -> reference_text s -> e_fp e s = Some v -> float_text e specials allow s v
| ft_number v : (allow = true -> forall d, ~ special_text s d) -> ~ reference_text s ->
    e_stod e (map tolower s) = Some v -> float_text e specials allow s v.

(** the values found outside the element are doubles *)
Definition env_fp_ok (e : env) : Prop :=
  (forall s v, e_stod e s = Some v -> binary64 v) /\ (forall s v, e_fp e s = Some v -> binary64 v).
(** the state of an accepted <float> field, possibly reusing (a chain of) other accepted ones *)
Inductive float_reachable : float_state -> Prop :=
| fr_fresh e c p n s : env_fp_ok e -> c_deprecated c <= never -> float_parse e c p n None = Ok s -> float_reachable s
| fr_reuse e c p n o s : env_fp_ok e -> c_deprecated c <= never -> float_reachable o -> float_parse e c p n (Some o) = Ok s -> float_reachable s.
Definition float_start (old : option float_state) : Prop := match old with None => True | Some o => float_reachable o end.

(** the special value [x] described by the <special> element [n] *)
Definition fspecial_element (e : env) (t : float_type) (since depr : Z) (known : list (str * fspecial)) (n : node) (x : str * fspecial) : Prop :=
  exists p val,
    parseChildrenAsProps n [L "name"; L "val"; L "sinceVersion"; L "deprecated"; L "description"; L "displayName"]
                         true (parseNodeProps n) = Ok p /\
    find_prop p (L "name") = Some (fst x) /\ identifier (fst x) /\ ~ In (fst x) (map fst known) /\
    find_prop p (L "val") = Some val /\
    float_text e (fvalues known) true val (fs_value (snd x)) /\
    version_text (find_prop p (L "sinceVersion")) since (fs_since (snd x)) /\
    version_text (find_prop p (L "deprecated")) depr (fs_depr (snd x)) /\
    consistent_versions (e_version e) since depr (fs_since (snd x)) (fs_depr (snd x)).
Inductive fspecial_elements (e : env) (t : float_type) (since depr : Z) :
    list (str * fspecial) -> list node -> list (str * fspecial) -> Prop :=
| fse_nil l : fspecial_elements e t since depr l [] l
| fse_cons l n ns x fin : fspecial_element e t since depr l n x ->
    fspecial_elements e t since depr (l ++ [x]) ns fin -> fspecial_elements e t since depr l (n :: ns) fin.

(** [fstated e t specials name s lo hi]: the text [s] of the property [name] describes the values from [lo] to [hi] *)
Inductive fstated (e : env) (t : float_type) (specials : list (txt * spec_float)) : string -> txt -> dbl -> dbl -> Prop :=
| fsd_full s : bool_text s true -> fstated e t specials "validFullRange" s (DNum (- float_limit t)) (DNum (float_limit t))
| fsd_range s a b lo hi : range_text s a b -> float_text e specials false a lo -> float_text e specials false b hi ->
    ~ dlt (double_of hi) (double_of lo) -> fstated e t specials "validRange" s (double_of lo) (double_of hi)
| fsd_value s v : float_text e specials true s v -> fstated e t specials "validValue" s (double_of v) (double_of v)
| fsd_min s v : float_text e specials false s v -> fstated e t specials "validMin" s (double_of v) (DNum (float_limit t))
| fsd_max s v : float_text e specials false s v -> fstated e t specials "validMax" s (DNum (- float_limit t)) (double_of v).

(** ranges of doubles with the versions they belong to *)
Record drange := mkDR { dr_min : dbl; dr_max : dbl; dr_since : Z; dr_depr : Z }.
Definition drange_of (r : frange) : drange := mkDR (double_of (fr_min r)) (double_of (fr_max r)) (fr_since r) (fr_depr r).
Definition inside (r : drange) (x : dbl) : Prop :=
  dle (dr_min r) x /\ dle x (dr_max r) \/ (dr_min r = DNaN /\ dr_max r = DNaN /\ x = DNaN).
(** [r] is a range written in the <float> element [n] with the attributes [c] whose parsing gave [s] *)
Inductive fwritten (e : env) (c : common) (n : node) (s : float_state) : drange -> Prop :=
| fw_attr name txt lo hi : find_prop (parseNodeProps n) (L name) = Some txt ->
    fstated e (f_type s) (fvalues (f_specials s)) name txt lo hi ->
    fwritten e c n s (mkDR lo hi (c_since c) (c_deprecated c))
| fw_child name ch txt lo hi sv dv q : In ch (n_children n) -> is_elem ch = true -> n_name ch = L name ->
    parseNodeValue ch false = Ok txt ->
    fstated e (f_type s) (fvalues (f_specials s)) name txt lo hi ->
    parseChildrenAsProps ch [L "sinceVersion"; L "deprecated"] true (parseNodeProps ch) = Ok q ->
    version_text (find_prop q (L "sinceVersion")) (c_since c) sv ->
    version_text (find_prop q (L "deprecated")) (c_deprecated c) dv ->
    consistent_versions (e_version e) (c_since c) (c_deprecated c) sv dv ->
    fwritten e c n s (mkDR lo hi sv dv).
