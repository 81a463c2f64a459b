(** The generated function which reads a variant whose members are bundles told apart by a key: its
    text and what it does, given what reading the key and the rest of a member does. *)
From Coq Require Import Ascii String ZArith List Bool.
Import ListNotations.
From Verif.Model Require Import Base Field.
From Verif.Spec Require Import Texts Ints GenSpec CppSpec CondTyping ReadCode.
Open Scope Z_scope.

(** ** The members *)
(** the bundle a member is or refers to *)
Fixpoint bundle_of (f : field) : option (list field) :=
  match f with FRef _ _ t => bundle_of t | FBundle _ ms _ _ => Some ms | _ => None end.
(** the first field of the bundle has the only value [n], and reading any other one fails *)
Definition fixed_key (f : field) (n : Z) : Prop :=
  exists c i rest s d, bundle_of f = Some (FInt c i :: rest) /\ c_failOnInvalid c = true /\ c_pseudo c = false /\
    i_ranges i = [mkRange (i_default i) (i_default i) s d] /\ stands_for (i_type i) (i_default i) n.
(** what is stored for the keys are 64 bit numbers, and lengths are not negative (true of every accepted field) *)
Definition stored_keys (fs : list field) : Prop :=
  forall f c i rest, In f fs -> bundle_of f = Some (FInt c i :: rest) -> - 2 ^ 63 <= i_default i < 2 ^ 63 /\ 0 <= i_length i.

(** ** What reading does *)
(** [S]: the state of the object and of the input.  Reading the key with the given number of bytes left
    fails or gives its value, the new state and the number of bytes left.  [vr_rest j v]: the member with
    index [j] is selected, its key is [v], and its
    fields after the key are read one after another (by the base class of the member). *)
Record vreader (S : Type) := mkVReader {
  vr_key : S -> Z -> (txt + Z) * S * Z; vr_rest : nat -> Z -> S -> Z -> status * S }.
Arguments vr_key {S}. Arguments vr_rest {S}.
(** What is wanted: the member whose key was read is selected; the last one if it accepts any key and
    no other one has this key. *)
Inductive reads_variant {S} (fs : list field) (rd : vreader S) (s : S) (len : Z) : status * S -> Prop :=
| reads_no_key e s' len' : vr_key rd s len = (inl e, s', len') -> reads_variant fs rd s len (Failed e, s')
| reads_keyed v s' len' j f : vr_key rd s len = (inr v, s', len') -> nth_error fs j = Some f -> fixed_key f v ->
    reads_variant fs rd s len (vr_rest rd j v s' len')
| reads_any v s' len' j f : vr_key rd s len = (inr v, s', len') -> (forall g, In g fs -> ~ fixed_key g v) ->
    nth_error fs j = Some f -> (j + 1)%nat = length fs -> (forall n, ~ fixed_key f n) ->
    reads_variant fs rd s len (vr_rest rd j v s' len')
| reads_unknown v s' len' f n : vr_key rd s len = (inr v, s', len') -> (forall g, In g fs -> ~ fixed_key g v) ->
    nth_error fs (length fs - 1) = Some f -> fixed_key f n ->
    reads_variant fs rd s len (invalid, s').

(** ** The function *)
(** a member: its name, the name of its key, and whether it is told the version *)
Record vcase := mkVCase { vc_name : txt; vc_key : txt; vc_versions : bool }.
Record vfunc := mkVFunc { vf_type : txt; vf_versions : bool; vf_cases : list (txt * vcase); vf_default : option vcase }.
Definition print_versions (c : vcase) : txt :=
  if vc_versions c then T "field_" ++ vc_name c ++ T ".setVersion(Base::getVersion());" else [].
Definition print_case (x : txt * vcase) : txt :=
  let (label, c) := x in
  T "case " ++ label ++ T ": { auto& field_" ++ vc_name c ++ T " = initField_" ++ vc_name c ++ T "(); COMMS_ASSERT(field_" ++ vc_name c ++ T ".field_" ++ vc_key c ++
  T "().getValue() == commonKeyField.getValue());" ++ [newline] ++ print_versions c ++ [newline] ++
  T "return field_" ++ vc_name c ++ T ".template readFrom<1>(iter, len); }".
Definition print_default (d : option vcase) : txt :=
  match d with
  | None => T "default: break;"
  | Some c =>
      T "default: initField_" ++ vc_name c ++ T "().field_" ++ vc_key c ++ T "().setValue(commonKeyField.getValue());" ++ [newline] ++ print_versions c ++ [newline] ++
      T "return accessField_" ++ vc_name c ++ T "().template readFrom<1>(iter, len);"
  end.
Definition print_vfunc (f : vfunc) : txt :=
  T "reset();" ++ [newline] ++
  (if vf_versions f then T "static_assert(Base::isVersionDependent(), " ++ [""""%char] ++ T "The field must be recognised as version dependent" ++ [""""%char] ++ T ");" else []) ++ [newline] ++
  T "using CommonKeyField= " ++ vf_type f ++ T "; CommonKeyField commonKeyField; auto origIter = iter; auto es = commonKeyField.read(iter, len);" ++
  T "if (es != comms::ErrorStatus::Success) { return es; }" ++
  T "auto consumedLen = static_cast<std::size_t>(std::distance(origIter, iter)); COMMS_ASSERT(consumedLen <= len); len -= consumedLen;" ++
  T "switch (commonKeyField.getValue()) {" ++ [newline] ++ join [newline] (map print_case (vf_cases f) ++ [print_default (vf_default f)]) ++ [newline] ++
  T "}; return comms::ErrorStatus::InvalidMsgData;".
(** the type of the key *)
Definition print_key (ns : txt) (params cpp opts : txt) : txt :=
  T "comms::field::IntValue<" ++ ns ++ T "::field::FieldBase<" ++ params ++ T ">, " ++ cpp ++ match opts with [] => [] | _ => T ", " ++ opts end ++ [newline] ++ T ">".
(** [names]: the members in the order of their indices; "initField_x()" selects the member named x.  The case whose label is
    the value of the key is executed, the default one if there is none. *)
Inductive runs_variant {S} (names : list txt) (f : vfunc) (rd : vreader S) (s : S) (len : Z) : status * S -> Prop :=
| run_no_key e s' len' : vr_key rd s len = (inl e, s', len') -> runs_variant names f rd s len (Failed e, s')
| run_case v s' len' label c j : vr_key rd s len = (inr v, s', len') -> In (label, c) (vf_cases f) -> constant_with_comment label v ->
    index_of (vc_name c) names = Some j -> runs_variant names f rd s len (vr_rest rd j v s' len')
| run_default v s' len' c j : vr_key rd s len = (inr v, s', len') -> (forall label c, In (label, c) (vf_cases f) -> ~ constant_with_comment label v) ->
    vf_default f = Some c -> index_of (vc_name c) names = Some j -> runs_variant names f rd s len (vr_rest rd j v s' len')
| run_break v s' len' : vr_key rd s len = (inr v, s', len') -> (forall label c, In (label, c) (vf_cases f) -> ~ constant_with_comment label v) ->
    vf_default f = None -> runs_variant names f rd s len (invalid, s').
