(** Model of lib/src/parse/parse_common.cpp: text and length helpers. *)
From Verif.Model Require Import Base.

(** ** Characters (C locale <cctype>; bytes >= 128 are in no class; passing a
    negative char to these functions, formally undefined, is taken as "no"). *)
Definition code (c : ascii) : Z := Z.of_N (N_of_ascii c).
Definition in_rng (lo hi : Z) (c : ascii) : bool := (lo <=? code c) && (code c <=? hi).
Definition isupper (c : ascii) : bool := in_rng 65 90 c.
Definition islower (c : ascii) : bool := in_rng 97 122 c.
Definition isalpha (c : ascii) : bool := isupper c || islower c.
Definition isdigit (c : ascii) : bool := in_rng 48 57 c.
Definition isalnum (c : ascii) : bool := isalpha c || isdigit c.
(** std::isspace: 9..13 and ' ' *)
Definition isspace (c : ascii) : bool := in_rng 9 13 c || (code c =? 32).
(** std::tolower / std::toupper *)
Definition tolower (c : ascii) : ascii :=
  if isupper c then ascii_of_N (Z.to_N (code c + 32)) else c.
Definition toupper (c : ascii) : ascii :=
  if islower c then ascii_of_N (Z.to_N (code c - 32)) else c.

Definition chr (n : Z) : ascii := ascii_of_N (Z.to_N n).
Definition ch_eqb (a b : ascii) : bool := Ascii.eqb a b.

(** parse_common.cpp 918-936: reference prefix characters *)
Definition c_sibling : ascii := "$"%char.
Definition c_extref : ascii := "^"%char.
Definition c_schema : ascii := "@"%char.
Definition c_interface : ascii := "%"%char.

(** ** Number literals: std::stoll / std::stoull / std::stoul with base 0
    (libstdc++ over glibc strtoll/strtoull; the "0b" prefix recognised by
    glibc >= 2.38 is not modelled). *)
Fixpoint skip_space (s : str) : str :=
  match s with
  | c :: s' => if isspace c then skip_space s' else s
  | [] => []
  end.

(** value of a digit in any base up to 16, 16 or more when it is not one *)
Definition digit_val (c : ascii) : Z :=
  if isdigit c then code c - 48
  else if in_rng 97 102 c then code c - 87
  else if in_rng 65 70 c then code c - 55
  else 99.

(** longest run of digits below [base]; [None] if there is none *)
Fixpoint digits (base : Z) (acc : option Z) (s : str) : option Z :=
  match s with
  | c :: s' =>
      if digit_val c <? base
      then digits base (Some (match acc with None => 0 | Some a => a end * base + digit_val c)) s'
      else acc
  | [] => acc
  end.

(** unsigned magnitude with automatic radix *)
Definition magnitude (s : str) : option Z :=
  match s with
  | z :: x :: h :: _ =>
      if ch_eqb z "0" && (ch_eqb x "x" || ch_eqb x "X") && (digit_val h <? 16)
      then digits 16 None (skipn 2 s)
      else if ch_eqb z "0" then digits 8 None s else digits 10 None s
  | z :: _ => if ch_eqb z "0" then digits 8 None s else digits 10 None s
  | [] => None
  end.

(** optional sign: (negative?, rest) *)
Definition sign (s : str) : bool * str :=
  match s with
  | c :: s' => if ch_eqb c "-" then (true, s') else if ch_eqb c "+" then (false, s') else (false, s)
  | [] => (false, [])
  end.

(** std::stoll(str, 0, 0) *)
Definition stoll (s : str) : option Z :=
  let (neg, r) := sign (skip_space s) in
  match magnitude r with
  | None => None
  | Some m => let v := if neg then - m else m in
              if (int_min <=? v) && (v <=? int_max) then Some v else None
  end.

(** std::stoull(str, 0, 0) and, on LP64, std::stoul: a minus sign negates
    modulo 2^64; the magnitude must fit 64 bits. *)
Definition stoull (s : str) : option Z :=
  let (neg, r) := sign (skip_space s) in
  match magnitude r with
  | None => None
  | Some m => if m <=? uint_max then Some (if neg then to_u64 (- m) else m) else None
  end.

(** parse_common.cpp 938-954 parseStrToUnsigned: unsigned <- unsigned long *)
Definition parseStrToUnsigned (s : str) : option Z := option_map to_u32 (stoull s).
(** parse_common.cpp 956-972 *)
Definition parseStrToIntMax (s : str) : option Z := stoll s.
(** parse_common.cpp 974-990 *)
Definition parseStrToUintMax (s : str) : option Z := stoull s.

(** parse_common.cpp 1318-1339 parseToLower, parseToLowerCopy *)
Definition to_lower (s : str) : str := map tolower s.

(** parse_common.cpp 1024-1058 parseStrToBool *)
Definition parseStrToBool (s : str) : option bool :=
  let l := to_lower s in
  if str_eqb l (L "true") || str_eqb l (L "1") then Some true
  else if str_eqb l (L "false") || str_eqb l (L "0") then Some false
  else None.

(** parse_common.cpp 1295-1316 parseEndian; [None] = ParseEndian_NumOfValues *)
Inductive endian := Little | Big.
Definition parseEndian (s : str) (dflt : endian) : option endian :=
  if is_nil s then Some dflt
  else let l := to_lower s in
       if str_eqb l (L "little") then Some Little
       else if str_eqb l (L "big") then Some Big else None.

(** parse_common.cpp 1341-1362 parseRemoveHeadingTrailingWhitespaces *)
Definition is_ws (c : ascii) : bool :=
  ch_eqb c " " || ch_eqb c (chr 13) || ch_eqb c (chr 10) || ch_eqb c (chr 9).
(** find_first_not_of + erase of the prefix *)
Fixpoint drop_while (p : ascii -> bool) (s : str) : str :=
  match s with
  | c :: s' => if p c then drop_while p s' else s
  | [] => []
  end.
(** find_last_not_of + erase of the suffix *)
Definition drop_while_end (p : ascii -> bool) (s : str) : str := rev (drop_while p (rev s)).
Definition trim (s : str) : str := drop_while_end is_ws (drop_while is_ws s).

(** parse_common.cpp 1364-1395 parseNormaliseString *)
Definition is_repl (c : ascii) : bool := ch_eqb c (chr 9) || ch_eqb c (chr 13) || ch_eqb c (chr 10).
Fixpoint squeeze (removing : bool) (s : str) : str :=
  match s with
  | [] => []
  | c :: s' =>
      if negb (ch_eqb c " ") then c :: squeeze false s'
      else if removing then squeeze true s' else c :: squeeze true s'
  end.
Definition normalise (s : str) : str :=
  squeeze false (map (fun c => if is_repl c then " "%char else c) s).

(** std::string::find(char) as a split: text before and text after *)
Fixpoint split_at (c : ascii) (s : str) : option (str * str) :=
  match s with
  | [] => None
  | x :: s' => if ch_eqb x c then Some ([], s')
               else match split_at c s' with
                    | Some (a, b) => Some (x :: a, b)
                    | None => None
                    end
  end.

(** parse_common.cpp 1397-1446 parseRange *)
Definition is_blank (c : ascii) : bool := ch_eqb c " " || ch_eqb c (chr 9).
Definition parseRange (s : str) : option (str * str) :=
  if Nat.leb (length s) 3 then None
  else match s with
  | b :: t =>
      if negb (ch_eqb b "[") then None
      else match split_at "," t with
      | None => None
      | Some (lo, r) =>
          match split_at "," r with
          | Some _ => None
          | None =>
              match split_at "]" r with
              | Some (hi, []) => Some (drop_while_end is_blank lo, drop_while is_blank hi)
              | _ => None
              end
          end
      end
  | [] => None
  end.

(** parse_common.cpp 1448-1464 parseIsValidName *)
Definition name_start (c : ascii) : bool := isalpha c || ch_eqb c "_".
Definition name_char (c : ascii) : bool := isalnum c || ch_eqb c "_".
Definition parseIsValidName (s : str) : bool :=
  match s with
  | [] => false
  | c :: _ => name_start c && forallb name_char s
  end.

(** parse_common.cpp 1466-1515 parseIsValidRefName. The loop over the dots is
    the test that no two dots are adjacent. *)
Fixpoint no_dotdot (s : str) : bool :=
  match s with
  | a :: ((b :: _) as s') => negb (ch_eqb a "." && ch_eqb b ".") && no_dotdot s'
  | _ => true
  end.
Definition parseIsValidRefName (s : str) : bool :=
  let s := match s with c :: s' => if ch_eqb c c_schema then s' else s | [] => s end in
  match s with
  | [] => false
  | c :: _ =>
      name_start c
      && forallb (fun ch => name_char ch || ch_eqb ch ".") s
      && negb (ch_eqb (last s " "%char) ".")
      && no_dotdot s
  end.

(** parse_common.cpp 1517-1528 parseIsValidExternalRefName *)
Definition parseIsValidExternalRefName (s : str) : bool :=
  match s with
  | c :: ((_ :: _) as s') => ch_eqb c c_extref && parseIsValidRefName s'
  | _ => false
  end.

(** parse_common.cpp 38, 1530-1533 *)
Definition max_len : Z := uint_max.
(** parse_common.cpp 1535-1543 parseAddToLength (accLen returned) *)
Definition add_len (newLen acc : Z) : Z :=
  if max_len - acc <=? newLen then max_len else to_u64 (acc + newLen).
(** parse_common.cpp 1545-1552 parseMulLength: the division traps when factor = 0 *)
Definition mul_len (len factor : Z) : res Z :=
  if factor =? 0 then UB
  else if (max_len - 1) / factor + 1 <=? len then Ok max_len
  else Ok (to_u64 (len * factor)).

(** parse_common.cpp 1072-1280 parseStrToUnits: clean-up of the text before the
    table lookup; the table itself is not modelled. *)
Definition units_key (s : str) : str :=
  filter (fun c => negb (ch_eqb c " " || ch_eqb c (chr 9))) (to_lower s).
