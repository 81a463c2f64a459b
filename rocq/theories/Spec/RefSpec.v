(** What the references of conditions stand for: a text such as $a.b, $#list, $?opt or
    $set.bit names a field among the siblings, its size, its presence, or one of its values. *)
From Verif.Model Require Import Base Common Xml Units Field FieldCommon IntField EnumField SetField FloatField OptCond.
From Verif.Spec Require Import Texts Ints Versions IntSpec EnumSpec XmlSpec FieldSpec CondSpec.

Inductive target := TheField | TheValue (name : txt) | TheSize | ThePresence.

(** [step text first rest]: [text] is [first], or [first].[rest] *)
Definition step (text first rest : txt) : Prop :=
  ~ In "."%char first /\ (text = first /\ rest = [] \/ text = first ++ "."%char :: rest).
(** names of the values of a field: specials, enum values, bits *)
Definition value_names (f : field) : list txt :=
  match f with
  | FInt _ s => map fst (i_specials s)
  | FEnum _ s => map fst (en_values s)
  | FSet _ s => map fst (s_bits s)
  | FFloat _ s => map fst (f_specials s)
  | _ => []
  end.
Inductive has_size : field -> Prop :=
| hs_list c s el a b d t : has_size (FList c s el a b d t)
| hs_string c s p : has_size (FString c s p)
| hs_data c s p : has_size (FData c s p)
| hs_ref c b g : has_size g -> has_size (FRef c b g).
(** an optional field, or one that does not exist in every version *)
Inductive may_be_absent : field -> Prop :=
| ma_optional c s o g d : may_be_absent (FOptional c s o g d)
| ma_version f : (0 < c_since (f_common f) \/ c_deprecated (f_common f) < never)%Z -> may_be_absent f
| ma_ref c b g : may_be_absent g -> may_be_absent (FRef c b g).

(** [among ms text g t]: in the list [ms] of fields the reference [text] leads to [g], and stands
    for [t]; [within f text g t]: so does [text] within the field [f] *)
Inductive among : list field -> txt -> field -> target -> Prop :=
| am_named ms m first rest text g t : In m ms -> f_name m = first -> step text first rest ->
    within m rest g t -> among ms text g t
| am_size ms text g : among ms text g TheField -> has_size g -> among ms ("#"%char :: text) g TheSize
| am_presence ms text g : among ms text g TheField -> may_be_absent g -> among ms ("?"%char :: text) g ThePresence
with within : field -> txt -> field -> target -> Prop :=
| in_itself f : within f [] f TheField
| in_value f v : In v (value_names f) -> within f v f (TheValue v)
| in_members f text g t : among (f_members f) text g t -> within f text g t
| in_ref c b h text g t : within h text g t -> within (FRef c b h) text g t
| in_optional c s h d first rest text g t : f_name h = first -> step text first rest ->
    within h rest g t -> within (FOptional c s true h d) text g t.

(** [same_sort f g]: values of the two fields can be compared *)
Fixpoint meant (f : field) : field := match f with FRef _ _ g => meant g | _ => f end.
Definition same_sort (f g : field) : Prop :=
  f_kind (meant f) = f_kind (meant g) \/
  (f_kind (meant f) = KInt \/ f_kind (meant f) = KEnum) /\ (f_kind (meant g) = KInt \/ f_kind (meant g) = KEnum).

(** blanks, a sign and a decimal digit at the start of the text *)
Definition decimal (t : txt) : Prop :=
  exists ws sg d rest, t = ws ++ sg ++ d :: rest /\ Forall space ws /\ In sg [[]; T "-"; T "+"] /\ dec_digit d.
(** [number_text e t names v]: [v] is one of the names, a reference to a value defined elsewhere, or a 64 bit literal *)
Definition number_text (e : env) (t : int_type) (names : list txt) (v : txt) : Prop :=
  In v names \/ (exists z big, reference_text v /\ e_num e v = Some (z, big) /\ (z < 0 -> big = true \/ signed_type t)%Z) \/
  (exists z, denotes v z /\ (- 2 ^ 63 <= z < 2 ^ 63 \/ big_type t /\ Z.abs z < 2 ^ 64)%Z).
(** [comparable_text e f v]: [v] is a value fields like [f] are compared with *)
Inductive comparable_text (e : env) : field -> txt -> Prop :=
| ct_number f v z : c_sem (f_common f) = SemVersion \/ c_sem (f_common f) = SemLength -> denotes v z -> comparable_text e f v
| ct_int c s v : number_text e (i_type s) (map fst (i_specials s)) v -> comparable_text e (FInt c s) v
| ct_enum c s v : number_text e (en_type s) (map fst (en_values s)) v -> comparable_text e (FEnum c s) v
| ct_set c s v z : denotes v z -> (0 <= z)%Z -> comparable_text e (FSet c s) v
| ct_set_ref c s v z big : e_num e v = Some (z, big) -> (big = true \/ 0 <= z)%Z -> comparable_text e (FSet c s) v
| ct_float c s v x : float_str_to_value e (f_specials s) v true = Some x -> comparable_text e (FFloat c s) v
| ct_string c s q v : (forall r, v <> "^"%char :: r) -> comparable_text e (FString c s q) v
| ct_string_ref c s q r g : e_find e r = Some g -> f_kind g = KString -> comparable_text e (FString c s q) ("^"%char :: r)
| ct_ref c b g v : comparable_text e g v -> comparable_text e (FRef c b g) v.

(** DSL version at least [v] *)
Definition since_dsl (e : env) (v : Z) : Prop := e_dsl e = 0%Z \/ (v <= e_dsl e)%Z.
(** what a reference of an interface field stands for *)
Definition in_interfaces (e : env) (text : txt) (g : field) (t : target) : Prop :=
  exists l i, e_iface e text = Ok l /\ In i l /\ ri_field i = g /\
    match ri_type i with RField => t = TheField | RInner => t = TheValue (ri_value i) | RSize => t = TheSize | RExists => t = ThePresence end.
(** an operand with its reference sign: $ for siblings, % for interface fields *)
Definition operand_is (e : env) (sibs : list field) (o : txt) (g : field) (t : target) : Prop :=
  exists text, o = "$"%char :: text /\ among sibs text g t \/ o = "%"%char :: text /\ in_interfaces e text g t.

(** [grounded e sibs c]: all the condition [c] refers to exists and can be compared *)
Inductive grounded (e : env) (sibs : list field) : cond -> Prop :=
| gr_bit op r g v : operand_is e sibs r g (TheValue v) -> grounded e sibs (CExpr [] op r)
| gr_presence op r g : operand_is e sibs r g ThePresence -> since_dsl e 6 -> grounded e sibs (CExpr [] op r)
| gr_size l op r g : operand_is e sibs l g TheSize -> since_dsl e 6 -> decimal r -> grounded e sibs (CExpr l op r)
| gr_fields l op r g h : operand_is e sibs l g TheField -> operand_is e sibs r h TheField -> same_sort g h ->
    grounded e sibs (CExpr l op r)
| gr_value l op r g : operand_is e sibs l g TheField -> (forall t, r <> "$"%char :: t /\ r <> "%"%char :: t) ->
    comparable_text e g r -> grounded e sibs (CExpr l op r)
| gr_list b cs : Forall (grounded e sibs) cs -> grounded e sibs (CList b cs).

(** ** where conditions stand *)
(** [mentions c o]: the operand [o] appears in [c] *)
Inductive mentions : cond -> txt -> Prop :=
| mn_left l op r : mentions (CExpr l op r) l
| mn_right l op r : mentions (CExpr l op r) r
| mn_list b cs c o : In c cs -> mentions c o -> mentions (CList b cs) o.
(** [leads ms path g]: the dotted path of names leads to [g] *)
Inductive leads : list field -> txt -> field -> Prop :=
| ld_here ms m : In m ms -> leads ms (f_name m) m
| ld_down ms m rest g : In m ms -> leads (f_members m) rest g -> leads ms (f_name m ++ "."%char :: rest) g.
(** an integer, or a field that holds a length *)
Definition counts (f : field) : Prop := f_kind (meant f) = KInt \/ c_sem (f_common f) = SemLength.
(** the siblings that hold the length or number of elements of a field, if there are any *)
Definition measures (f : field) : list txt :=
  match f with
  | FString _ s _ => [st_detached s]
  | FData _ s _ => [d_detached s]
  | FList _ s _ _ _ _ _ => [l_detCount s; l_detLength s; l_detElemLength s]
  | _ => []
  end.
(** all that the member [m] says of the members [before] it is true *)
Definition sound_member (e : env) (before : list field) (m : field) : Prop :=
  (forall c s o g d, m = FOptional c s o g (Some d) -> grounded e before d) /\
  (forall path, In path (measures m) -> path = [] \/ exists g, leads before path g /\ counts g).
Definition sound_members (e : env) (ms : list field) : Prop :=
  forall before m after, ms = before ++ m :: after -> sound_member e before m.
Definition sound_field (e : env) (f : field) : Prop :=
  match f with
  | FBundle _ ms _ vc => sound_members e ms /\
      forall d, vc = Some d -> grounded e ms d /\ (forall o t, mentions d o -> o <> "%"%char :: t)
  | FBitfield _ _ ms vc => forall d, vc = Some d -> grounded e ms d /\ (forall o t, mentions d o -> o <> "%"%char :: t)
  | _ => True
  end.
(** conditions a message object can be made to satisfy: one equality, a bit or its negation, or a conjunction of such *)
Inductive constructible : cond -> Prop :=
| cs_equal l op r : l = [] \/ op = T "=" -> constructible (CExpr l op r)
| cs_and cs : cs <> [] -> Forall constructible cs -> constructible (CList true cs).
