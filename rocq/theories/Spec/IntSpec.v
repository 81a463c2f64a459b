(** Specification vocabulary for integer fields: which states are reachable and how the
    parts of an <int> element are to be read. *)
From Verif.Model Require Import Base Common Xml Units Field FieldCommon IntField.
From Verif.Spec Require Import Texts Ints Versions.

(** value of an intmax_t *)
Definition is64 (v : Z) : Prop := int_min <= v <= int_max.
(** the values references resolve to are 64 bit numbers, unsigned ones above 2^63 being
    stored as negative *)
Definition env_num_ok (e : env) : Prop :=
  forall s v b, e_num e s = Some (v, b) -> is64 v /\ (b = true -> v < 0).

(** the state of an <int> field that was accepted, possibly reusing (a chain of) other
    accepted <int> fields; [c]: attributes common to all fields *)
Inductive int_reachable : int_state -> Prop :=
| ir_fresh e c p n s : env_num_ok e -> int_parse e c p n None = Ok s -> int_reachable s
| ir_reuse e c p n o s : env_num_ok e -> int_reachable o -> int_parse e c p n (Some o) = Ok s ->
    int_reachable s.
(** what an element starts from: nothing or a reachable state *)
Definition start_ok (old : option int_state) : Prop :=
  match old with None => True | Some o => int_reachable o end.

Definition numbers (l : list (str * named_val)) : list (txt * Z) := map (fun x => (fst x, v_value (snd x))) l.

(** the special value [x] described by the <special> element [n], when [known] are the
    specials defined before it; [since], [depr]: versions of the field *)
Definition special_element (e : env) (t : int_type) (since depr : Z) (known : list (str * named_val))
    (n : node) (x : str * named_val) : Prop :=
  exists p val,
    parseChildrenAsProps n [L "name"; L "val"; L "sinceVersion"; L "deprecated"; L "description"; L "displayName"]
                         true (parseNodeProps n) = Ok p /\
    find_prop p (L "name") = Some (fst x) /\ identifier (fst x) /\ ~ In (fst x) (map fst known) /\
    find_prop p (L "val") = Some val /\
    value_text t (e_num e) (numbers known) val (v_value (snd x)) /\
    version_text (find_prop p (L "sinceVersion")) since (v_since (snd x)) /\
    version_text (find_prop p (L "deprecated")) depr (v_depr (snd x)) /\
    consistent_versions (e_version e) since depr (v_since (snd x)) (v_depr (snd x)).
Inductive special_elements (e : env) (t : int_type) (since depr : Z) :
    list (str * named_val) -> list node -> list (str * named_val) -> Prop :=
| se_nil l : special_elements e t since depr l [] l
| se_cons l n ns x fin : special_element e t since depr l n x ->
    special_elements e t since depr (l ++ [x]) ns fin -> special_elements e t since depr l (n :: ns) fin.

(** [stated e t specials mn mx rp s lo hi]: the text [s] of the property [rp] describes the
    values from [lo] to [hi]; [mn], [mx]: the serialisable limits of the field *)
Inductive stated (e : env) (t : int_type) (specials : list (str * named_val)) (mn mx : Z) :
    range_prop -> txt -> Z -> Z -> Prop :=
| sd_range s a b lo hi : range_text s a b -> value_text t (e_num e) (numbers specials) a lo ->
    value_text t (e_num e) (numbers specials) b hi ->
    (exists l h, stands_for t lo l /\ stands_for t hi h /\ l <= h) ->
    stated e t specials mn mx ValidRange s lo hi
| sd_value s v : value_text t (e_num e) (numbers specials) s v -> stated e t specials mn mx ValidValue s v v
| sd_min s v : value_text t (e_num e) (numbers specials) s v -> stated e t specials mn mx ValidMin s v mx
| sd_max s v : value_text t (e_num e) (numbers specials) s v -> stated e t specials mn mx ValidMax s mn v.

(** [r] is a range written in the <int> element [n] (properties [p]) whose parsing gave [s] *)
Inductive written_range (e : env) (c : common) (p : props) (n : node) (s : int_state) : vrange -> Prop :=
| wr_attr rp txt lo hi : find_prop (parseNodeProps n) (range_prop_name rp) = Some txt ->
    stated e (i_type s) (i_specials s) (i_min s) (i_max s) rp txt lo hi ->
    written_range e c p n s (mkRange lo hi (c_since c) (c_deprecated c))
| wr_child rp ch txt lo hi sv dv q : In ch (n_children n) -> is_elem ch = true -> n_name ch = range_prop_name rp ->
    parseNodeValue ch false = Ok txt ->
    stated e (i_type s) (i_specials s) (i_min s) (i_max s) rp txt lo hi ->
    parseChildrenAsProps ch [L "sinceVersion"; L "deprecated"] true (parseNodeProps ch) = Ok q ->
    version_text (find_prop q (L "sinceVersion")) (c_since c) sv ->
    version_text (find_prop q (L "deprecated")) (c_deprecated c) dv ->
    consistent_versions (e_version e) (c_since c) (c_deprecated c) sv dv ->
    written_range e c p n s (mkRange lo hi sv dv)
| wr_default txt v : find_prop p (L "defaultValidValue") = Some txt -> e_dsl e = 0 \/ 4 <= e_dsl e ->
    value_text (i_type s) (e_num e) (numbers (i_specials s)) txt v ->
    written_range e c p n s (mkRange v v (c_since c) (c_deprecated c)).
