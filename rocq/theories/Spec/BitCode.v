(** The named bits of generated set classes: access functions and names.
    Independent of the model's functions. *)
From Coq Require Import Ascii String ZArith List Bool Sorted.
Import ListNotations.
From Verif.Model Require Import Base Field SetField.
From Verif.Spec Require Import Texts Ints Versions IntSpec GenSpec CppSpec CondCode BodySpec EnumCode SetCode.
Open Scope Z_scope.

(** ** Access functions *)
(** the call of a macro, with each argument in a row of its own *)
Fixpoint arg_rows (args : list txt) : list txt :=
  match args with
  | [] => []
  | [a] => [a]
  | a :: l => (a ++ T ",") :: arg_rows l
  end.
Definition call_rows (macro : string) (args : list txt) : list txt := [T macro ++ T "("] ++ arg_rows args ++ [T ");"].
(** The macros of the COMMS library: COMMS_BITMASK_BITS_SEQ(a, b, ...) defines BitIdx_a = 0, BitIdx_b = 1, ... and
    the functions to access these bits; COMMS_BITMASK_BITS(a=5, ...) defines BitIdx_a = 5, ..., and
    COMMS_BITMASK_BITS_ACCESS(a, ...) the functions.  [bit_rows rows bits]: the rows define these names for these indices. *)
Inductive bit_rows : list txt -> list (txt * Z) -> Prop :=
| rows_seq before names : Forall comment before ->
    bit_rows (before ++ call_rows "COMMS_BITMASK_BITS_SEQ" names) (combine names (map Z.of_nat (seq 0 (length names))))
| rows_own before between (bits : list (txt * txt * Z)) : Forall comment before -> Forall comment between ->
    Forall (fun x => constant (snd (fst x)) (snd x)) bits ->
    bit_rows (before ++ call_rows "COMMS_BITMASK_BITS" (map (fun x => fst (fst x) ++ T "=" ++ snd (fst x)) bits) ++ [[]] ++
              between ++ call_rows "COMMS_BITMASK_BITS_ACCESS" (map (fun x => fst (fst x)) bits))
             (map (fun x => (fst (fst x), snd x)) bits).
Definition bit_access (text : txt) (bits : list (txt * Z)) : Prop :=
  exists rows, bit_rows rows bits /\ unindent true text = concat (map (fun r => r ++ [newline]) rows).

(** ** Names *)
(** the body of bitName(idx) which selects an element of an array *)
Definition bit_name_code (elems : list txt) : txt :=
  lines ["static const char* Map[] = {"]%string ++ join (T "," ++ [newline]) elems ++
  newline :: lines ["};"; ""; "static const std::size_t MapSize = std::extent<decltype(Map)>::value;"; "if (MapSize <= idx) {"; "return nullptr;"; "}"; ""]%string ++
  T "return Map[idx];".
(** ... or the one for a field without bits *)
Definition no_bits_code : txt := lines ["static_cast<void>(idx);"]%string ++ T "return nullptr;".
Definition bit_name (body : txt) (k : Z) (t : option txt) : Prop :=
  (unindent true body = no_bits_code /\ t = None) \/
  (exists elems, unindent true body = bit_name_code elems /\ direct_name elems k t).
(** the text for an index in version [ver]: no text if no bit has it, otherwise the display name
    of a bit which has it, one which is not deprecated if there is one *)
Definition bit_shows (ver : Z) (s : set_state) (k : Z) (t : option txt) : Prop :=
  match t with
  | None => forall n b, ~ declared_bit s k n b
  | Some x => exists n b, declared_bit s k n b /\ displayed n (b_displayName b) x /\
      ((exists n' b', declared_bit s k n' b' /\ ver < b_depr b') -> ver < b_depr b)
  end.
(** display names which may be written into a string literal *)
Definition plain_bit_names (s : set_state) : Prop :=
  Forall (fun x => forall c, In c (b_displayName (snd x)) -> ~ In c [newline; "\"%char; ascii_of_nat 34]) (s_bits s).
