(** Generated code of string, data and list fields: what it says, independent of the
    functions which write it. *)
From Coq Require Import Ascii String ZArith List Bool Sorted.
Import ListNotations.
From Verif.Model Require Import Field.
From Verif.Spec Require Import Texts Versions GenSpec CppSpec TokenSpec AttrSpec.
Open Scope Z_scope.

(** * Values *)

(** ** String literals *)
(** the characters between the quotes of a string literal and the string they stand for;
    escapes with numbers are not described *)
Definition escape_chars : list (ascii * ascii) :=
  map (fun p => (ascii_of_nat (fst p), ascii_of_nat (snd p)))
    [(34, 34); (39, 39); (63, 63); (92, 92); (97, 7); (98, 8); (102, 12); (110, 10); (114, 13); (116, 9); (118, 11)]%nat.
Definition quote_char : ascii := ascii_of_nat 34.
Definition backslash : ascii := ascii_of_nat 92.
(** a character which stands for itself *)
Definition ordinary (c : ascii) : Prop := c <> quote_char /\ c <> backslash /\ c <> newline /\ c <> ascii_of_nat 0.
Inductive literal_chars : txt -> txt -> Prop :=
| lc_end : literal_chars [] []
| lc_char c s v : c <> quote_char -> c <> backslash -> c <> newline -> literal_chars s v -> literal_chars (c :: s) (c :: v)
| lc_escape c d s v : In (c, d) escape_chars -> literal_chars s v -> literal_chars (backslash :: c :: s) (d :: v).
(** a whole literal *)
Definition stands_for_string (l v : txt) : Prop := exists s, l = quote_char :: s ++ [quote_char] /\ literal_chars s v.

(** ** Arrays of bytes *)
(** between the braces: constants from 0 to 255; an array without elements is ill-formed *)
Definition byte_array (s : txt) (l : list Z) : Prop :=
  l <> [] /\ exists parts, s = join (T ", ") parts /\ Forall2 (fun p b => constant p b /\ 0 <= b < 256) parts l.

(** ** Default values *)
(** the text of the statements which set the value of the literal [l] *)
Definition set_string (l : txt) : txt :=
  T "static const char Str[] = " ++ l ++ T ";" ++ [newline] ++
  T "static const std::size_t StrSize = std::extent<decltype(Str)>::value;" ++ [newline] ++
  T "Base::setValue(typename Base::ValueType(&Str[0], StrSize - 1));" ++ [newline].
(** the same for bytes, up to the layout *)
Definition set_bytes (bytes : txt) : txt :=
  T "static const std::uint8_t Data[] = { " ++ bytes ++ T " }; comms::util::assign(Base::value(), std::begin(Data), std::end(Data));".

(** ** Valid values *)
(** std::lower_bound(table, v) followed by the comparison with the element found: the elements
    less than [v] have to be the first ones, otherwise the call is undefined *)
Inductive looked_up {A} (lt : A -> A -> Prop) (table : list A) (v : A) : bool -> Prop :=
| lu_intro i (found : bool) :
    (i <= length table)%nat ->
    (forall j x, nth_error table j = Some x -> (lt x v <-> (j < i)%nat)) ->
    (found = true <-> nth_error table i = Some v) ->
    looked_up lt table v found.
(** the order of std::string and of std::lexicographical_compare on bytes *)
Definition lex_lt {A} (rank : A -> Z) (a b : list A) : Prop := ~ lex_le rank b a.
Definition string_valid_code (literals : list txt) : txt :=
  T "if (!Base::valid()) {" ++ [newline] ++ T "    return false;" ++ [newline] ++ T "}" ++ [newline; newline] ++
  T "static const typename Base::ValueType Map[] = {" ++ [newline] ++ T "    " ++
  join (T "," ++ [newline] ++ T "    ") literals ++ [newline] ++ T "};" ++ [newline; newline] ++
  T "auto iter = std::lower_bound(std::begin(Map), std::end(Map), Base::getValue());" ++ [newline] ++
  T "return (iter != std::end(Map)) && ((*iter) == Base::getValue());" ++ [newline].
(** such a body, which looks the value up in [table] once the base class has accepted it; an empty table does not compile *)
Definition string_table (body : txt) (table : list txt) : Prop :=
  exists literals, literals <> [] /\ body = string_valid_code literals /\ Forall2 stands_for_string literals table.
(** the same for data, up to the layout: an array for every value and a table of the arrays *)
Definition array_code (a : txt * txt) : txt := T "static const std::uint8_t " ++ fst a ++ T "[] = { " ++ snd a ++ T " }; ".
Definition data_valid_code (arrays : list (txt * txt)) (names : list txt) : txt :=
  T "if (!Base::valid()) { return false; } " ++ concat (map array_code arrays) ++
  T "using MapElem = comms::util::ArrayView<std::uint8_t>; static const MapElem Map[] = { " ++
  join (T ", ") (map (fun n => T "MapElem(std::begin(" ++ n ++ T "), std::end(" ++ n ++ T "))") names) ++
  T " }; auto& val = Base::getValue(); auto iter = std::lower_bound(std::begin(Map), std::end(Map), val, " ++
  T "[](const MapElem& first, const typename Base::ValueType& second) { " ++
  T "return std::lexicographical_compare(first.begin(), first.end(), second.begin(), second.end()); }); " ++
  T "if ((iter == std::end(Map)) || (iter->size() != val.size())) { return false; } return std::equal(val.begin(), val.end(), iter->begin());".
Definition data_table (body : txt) (table : list (list Z)) : Prop :=
  exists arrays names, names <> [] /\ tokens body = tokens (data_valid_code arrays names) /\
    NoDup (map fst arrays) /\ Forall (fun a => identifier (fst a)) arrays /\
    Forall2 (fun n l => exists s, In (n, s) arrays /\ byte_array s l) names table.
(** the code of a field accepts what the table accepts *)
Definition table_accepts {A} (rank : A -> Z) (table : list (list A)) (accepted : list A -> Prop) : Prop :=
  forall v, exists b, looked_up (lex_lt rank) table v b /\ (b = true <-> accepted v).

(** * Extents *)
(** the options which have to do with the extent of a sequence *)
Definition sequence_option (o : txt) : Prop := exists s, o = T "comms::option::def::Sequence" ++ s.
(** [l] is one option as described if the field says so, and nothing otherwise *)
Definition option_if (says : Prop) (described : txt -> Prop) (l : list txt) : Prop :=
  says /\ (exists o, l = [o] /\ described o) \/ ~ says /\ l = [].
Definition fixed_size (n : Z) (o : txt) : Prop := exists a, o = an_option (T "SequenceFixedSize") [a] /\ constant a n.
(** the type of a field attached to the field of the class [cls]: a class among those of its members, or the class of a global field,
    with all its options *)
Definition attached_class (cls : txt) (global : bool) (member : txt) (t : txt) : Prop :=
  t = T "typename " ++ cls ++ T "Members" ++ (if global then T "<TOpt>" else []) ++ T "::" ++ member.
Definition global_class (scope : txt) (t : txt) : Prop := t = scope ++ T "<TOpt>" \/ t = scope ++ T "<TOpt> ".
(** a field of one byte which has to be 0; up to the layout *)
Definition zero_suffix (ns : txt) (o : txt) : Prop :=
  tokens o = tokens (an_option (T "SequenceTerminationFieldSuffix")
    [T "comms::field::IntValue<" ++ ns ++ T "::field::FieldBase<>, std::uint8_t, " ++
     an_option (T "ValidNumValueRange") [T "0"; T "0"] ++ T ", " ++ an_option (T "FailOnInvalid") [[]] ++ T ">"]).
(** the base class up to the layout: its first arguments and the options *)
Definition base_class (head : string) (ns : txt) (args opts : list txt) (t : txt) : Prop :=
  tokens t = tokens (T head ++ T "<" ++ ns ++ T "::field::FieldBase<>" ++ concat (map (fun o => T ", " ++ o) (args ++ opts)) ++ T ">").
(** the options of the three kinds of sequences; [cls]: the class of the field, [pre] and so on: the attached fields, each with whether it is
    a member, [name_of], [scope_of]: the classes of members and of global fields *)
Definition attached_option (name : string) (cls : txt) (global : bool) (name_of scope_of : field -> txt) (a : option (bool * field)) : list txt -> Prop :=
  option_if (a <> None) (fun o => exists own f t, a = Some (own, f) /\ o = an_option (T name) [t] /\
    if own : bool then attached_class cls global (name_of f) t else global_class (scope_of f) t).
Definition extent_options (opts : list txt) (parts : list (list txt -> Prop)) : Prop :=
  exists others ls, opts = others ++ concat ls /\ Forall (fun o => ~ sequence_option o) others /\ Forall2 (fun p l => p l) parts ls.
