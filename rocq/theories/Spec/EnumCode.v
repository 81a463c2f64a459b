(** Generated enum classes: the definition of the enumerators, the check of valid
    values and the array of names.  Independent of the model's functions. *)
From Coq Require Import Ascii String ZArith List Bool Sorted.
Import ListNotations.
From Verif.Model Require Import Base Field EnumField.
From Verif.Spec Require Import Texts Ints Versions IntSpec GenSpec CppSpec CondCode BodySpec.
Open Scope Z_scope.

(** ** Enumerators *)
(** a comment which ends with its line *)
Definition comment (t : txt) : Prop := exists r, t = T "//" ++ r /\ ~ In "\"%char r /\ ~ In newline r.
(** what may follow in a line: blanks, a comment *)
Definition trailing (t : txt) : Prop := exists k, t = repeat " "%char k \/ exists c, t = repeat " "%char k ++ c /\ comment c.
(** the lines between the braces of an enum define these names with these numbers *)
Inductive enumerators : list txt -> list (txt * Z) -> Prop :=
| en_end : enumerators [] []
| en_blank rows vs : enumerators rows vs -> enumerators ([] :: rows) vs
| en_comment c rows vs : comment c -> enumerators rows vs -> enumerators (c :: rows) vs
| en_value n a v t rows vs : constant a v -> trailing t -> enumerators rows vs ->
    enumerators ((n ++ T " = " ++ a ++ T "," ++ t) :: rows) ((n, v) :: vs).
(** the text is, up to layout, the definition of an enum class with underlying type [ty] *)
Definition enum_class (text ty : txt) (vs : list (txt * Z)) : Prop :=
  exists before rows, Forall comment before /\ enumerators rows vs /\
    unindent true text = concat (map (fun r => r ++ [newline])
      (before ++ [T "enum class ValueType : " ++ ty; T "{"] ++ rows ++ [T "};"])).
(** the keywords of C++11, [lex.key], and the alternative representations *)
Definition cpp_keywords : list txt := map T
  ["alignas"; "alignof"; "and"; "and_eq"; "asm"; "auto"; "bitand"; "bitor"; "bool"; "break"; "case"; "catch"; "char"; "char16_t"; "char32_t"; "class";
   "compl"; "const"; "constexpr"; "const_cast"; "continue"; "decltype"; "default"; "delete"; "do"; "double"; "dynamic_cast"; "else"; "enum"; "explicit";
   "export"; "extern"; "false"; "float"; "for"; "friend"; "goto"; "if"; "inline"; "int"; "long"; "mutable"; "namespace"; "new"; "noexcept"; "not";
   "not_eq"; "nullptr"; "operator"; "or"; "or_eq"; "private"; "protected"; "public"; "register"; "reinterpret_cast"; "return"; "short"; "signed";
   "sizeof"; "static"; "static_assert"; "static_cast"; "struct"; "switch"; "template"; "this"; "thread_local"; "throw"; "true"; "try"; "typedef";
   "typeid"; "typename"; "union"; "unsigned"; "using"; "virtual"; "void"; "volatile"; "wchar_t"; "while"; "xor"; "xor_eq"]%string.
(** the compiler accepts it: different names which are no keywords, numbers of the type *)
Definition enum_accepted (ty : txt) (vs : list (txt * Z)) : Prop :=
  NoDup (map fst vs) /\ Forall (fun x => identifier (fst x) /\ ~ In (fst x) cpp_keywords) vs /\ Forall (fun x => cpp_holds ty (snd x)) vs.

(** the numbers of the declared values *)
Definition declared_number (s : enum_state) (n : txt) (v : named_val) (z : Z) : Prop := In (n, v) (en_values s) /\ stands_for (en_type s) (v_value v) z.
(** the extra enumerators: in upper or lower case, followed by underscores if the name is taken *)
Definition extra_name (upper lower n : txt) : Prop := exists k, n = upper ++ repeat "_"%char k \/ n = lower ++ repeat "_"%char k.
Inductive extra_values (t : int_type) (lo hi : Z) : list (txt * Z) -> Prop :=
| extra_all a b c : extra_name (T "FirstValue") (T "firstValue") a -> extra_name (T "LastValue") (T "lastValue") b ->
    extra_name (T "ValuesLimit") (T "valuesLimit") c -> type_values t (hi + 1) -> extra_values t lo hi [(a, lo); (b, hi); (c, hi + 1)]
| extra_top a b : extra_name (T "FirstValue") (T "firstValue") a -> extra_name (T "LastValue") (T "lastValue") b ->
    ~ type_values t (hi + 1) -> extra_values t lo hi [(a, lo); (b, hi)].
(** the numbers are read in the same way everywhere: an unsigned 64-bit type, less than 8 bytes, or
    numbers which need no sign *)
Definition clear_numbers (s : enum_state) : Prop :=
  en_type s = Uint64 \/ (en_type s <> Uintvar /\ en_length s < 8) \/ (forall n v z, declared_number s n v z -> 0 <= z < 2 ^ 63).
(** accepted enum fields, whose own versions are in order *)
Inductive enum_declared : enum_state -> Prop :=
| ed_fresh e c p n s : env_num_ok e -> 0 <= c_since c < c_deprecated c -> c_deprecated c <= never ->
    enum_parse e c p n None = Ok s -> enum_declared s
| ed_reuse e c p n o s : env_num_ok e -> 0 <= c_since c < c_deprecated c -> c_deprecated c <= never ->
    enum_declared o -> enum_parse e c p n (Some o) = Ok s -> enum_declared s.
(** descriptions and display names without backslashes: a comment that ends with one goes on in the next line *)
Definition plain_docs (s : enum_state) : Prop :=
  Forall (fun x => ~ In "\"%char (v_description (snd x)) /\ ~ In "\"%char (v_displayName (snd x))) (en_values s).

(** ** Checks of valid() *)
(** a test on the version [w] or, with underlying type [ty], on the value [v] *)
Inductive test_true (ty : txt) (v w : Z) : txt -> Prop :=
| test_since a x : constant a x -> x <= w -> test_true ty v w (a ++ T " <= Base::getVersion()")
| test_until a x : constant a x -> w < x -> test_true ty v w (T "Base::getVersion() < " ++ a)
| test_is a x : constant a x -> converted ty x v ->
    test_true ty v w (T "Base::getValue() == static_cast<typename Base::ValueType>(" ++ a ++ T ")")
| test_from a x y : constant a x -> converted ty x y -> y <= v ->
    test_true ty v w (T "static_cast<typename Base::ValueType>(" ++ a ++ T ") <= Base::getValue()")
| test_to a x y : constant a x -> converted ty x y -> v <= y ->
    test_true ty v w (T "Base::getValue() <= static_cast<typename Base::ValueType>(" ++ a ++ T ")").
(** one test, or several in parentheses *)
Definition all_text (tests : list txt) : txt :=
  match tests with
  | [t] => t
  | _ => join (T " && ") (map (fun t => T "(" ++ t ++ T ")") tests)
  end.
(** one block: return true if all tests hold *)
Definition accept_code (tests : list txt) : txt := T "if (" ++ all_text tests ++ T ") { return true; } ".
(** several of them within a block for which all tests on the version hold *)
Definition group_code (g : list txt * list (list txt)) : txt :=
  T "if (" ++ all_text (fst g) ++ T ") { " ++ concat (map accept_code (snd g)) ++ T "} ".
Definition groups_code (gs : list (list txt * list (list txt))) : txt :=
  T "if (Base::valid()) { return true; } " ++ concat (map group_code gs) ++ T "return false; ".
(** valid() with such a body: the library's one, or a test of a group *)
Definition groups_valid (ty : txt) (opts : list txt) (gs : list (list txt * list (list txt))) (v w : Z) : Prop :=
  base_valid opts v \/
  exists g tests, In g gs /\ In tests (snd g) /\ Forall (test_true ty v w) (fst g) /\ Forall (test_true ty v w) tests.
(** the body which searches an array of enumerators *)
Definition array_code (names : list txt) : txt :=
  T "if (!Base::valid()) { return false; } static const ValueType Values[] = { " ++
  join (T ", ") (map (fun n => T "ValueType::" ++ n) names) ++
  T " }; auto iter = std::lower_bound(std::begin(Values), std::end(Values), Base::getValue()); " ++
  T "if ((iter == std::end(Values)) || (*iter != Base::getValue())) { return false; } return true; ".
(** valid() with such a body, when the enumerators are [vs]: it compiles if the names are
    among them, and std::lower_bound needs an array sorted by value *)
Definition array_valid (opts : list txt) (vs : list (txt * Z)) (names : list txt) (v : Z) : Prop :=
  exists numbers, Forall2 (fun n z => In (n, z) vs) names numbers /\ StronglySorted Z.lt numbers /\
    base_valid opts v /\ In v numbers.

(** ** Names *)
Definition string_literal (s : txt) : txt := ascii_of_nat 34 :: s ++ [ascii_of_nat 34].
(** the array of valueNamesMap(): the texts, or pairs of enumerators and texts *)
Definition map_code (pairs : bool) (elems : list txt) : txt :=
  (if pairs then lines ["static const ValueNameInfo Map[] = {"]%string else lines ["static const char* Map[] = {"]%string) ++
  join (T "," ++ [newline]) elems ++
  newline :: lines ["};"; "static const std::size_t MapSize = std::extent<decltype(Map)>::value;"; ""]%string ++
  T "return std::make_pair(&Map[0], MapSize);".
(** valueName(val) when the number selects the element: [None] stands for nullptr *)
Definition element (t : option txt) : txt := match t with None => T "nullptr" | Some s => string_literal s end.
Inductive direct_name (elems : list txt) (v : Z) : option txt -> Prop :=
| dn_outside : v < 0 \/ Z.of_nat (length elems) <= v -> direct_name elems v None
| dn_element t : 0 <= v -> nth_error elems (Z.to_nat v) = Some (element t) -> direct_name elems v t.
(** valueName(val) when the array, sorted by the numbers of the enumerators [vs], is searched *)
Definition pair_element (n t : txt) : txt := T "std::make_pair(ValueType::" ++ n ++ T ", " ++ string_literal t ++ T ")".
Definition searched_name (vs : list (txt * Z)) (elems : list txt) (v : Z) (t : option txt) : Prop :=
  exists entries : list (txt * Z * txt), elems = map (fun x => pair_element (fst (fst x)) (snd x)) entries /\
    (forall n z s, In (n, z, s) entries -> In (n, z) vs) /\ StronglySorted Z.lt (map (fun x => snd (fst x)) entries) /\
    match t with None => ~ In v (map (fun x => snd (fst x)) entries) | Some s => exists n, In (n, v, s) entries end.
(** the bodies of valueName(val) *)
Definition by_index_code : txt :=
  T "auto namesMapInfo = valueNamesMap(); if (namesMapInfo.second <= static_cast<std::size_t>(val)) { return nullptr; } " ++
  T "return namesMapInfo.first[static_cast<std::size_t>(val)]; ".
Definition by_search_code : txt :=
  T "auto namesMapInfo = valueNamesMap(); auto begIter = namesMapInfo.first; auto endIter = begIter + namesMapInfo.second; " ++
  T "auto iter = std::lower_bound(begIter, endIter, val, [](const ValueNameInfo& info, ValueType v) -> bool { return info.first < v; }); " ++
  T "if ((iter == endIter) || (iter->first != val)) { return nullptr; } return iter->second; ".
(** the display name, if there is one ("_" stands for an empty one), or the name *)
Inductive displayed (n : txt) : txt -> txt -> Prop :=
| displayed_name : displayed n [] n
| displayed_empty : displayed n (T "_") []
| displayed_other d : d <> [] -> d <> T "_" -> displayed n d d.
(** the text for a number in version [ver]: no text if no value has it, otherwise the
    display name of a value which has it, one which is not deprecated if there is one *)
Definition shows (ver : Z) (s : enum_state) (v : Z) (t : option txt) : Prop :=
  match t with
  | None => forall n d, ~ declared_number s n d v
  | Some x => exists n d, declared_number s n d v /\ displayed n (v_displayName d) x /\
      ((exists n' d', declared_number s n' d' v /\ ver < v_depr d') -> ver < v_depr d)
  end.
(** display names which may be written into a string literal *)
Definition plain_names (s : enum_state) : Prop :=
  Forall (fun x => forall c, In c (v_displayName (snd x)) -> ~ In c [newline; "\"%char; ascii_of_nat 34]) (en_values s).
(** no two values have the same number *)
Definition distinct_numbers (s : enum_state) : Prop :=
  forall n d n' d' z, declared_number s n d z -> declared_number s n' d' z -> n = n'.
