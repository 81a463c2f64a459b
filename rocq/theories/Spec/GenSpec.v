(** Specifications for the code generator's utilities, independent of the
    model's functions. *)
From Coq Require Import Ascii String ZArith List Bool.
Import ListNotations.
From Verif.Spec Require Import Texts.
Open Scope Z_scope.

(** * C++ integer literals *)

(** The integer types a literal may get on an LP64 platform. *)
Inductive ctype := TInt | TUInt | TLong | TULong | TLongLong | TULongLong.
Definition ctype_signed (t : ctype) : bool :=
  match t with TInt | TLong | TLongLong => true | _ => false end.
Definition ctype_bits (t : ctype) : Z := match t with TInt | TUInt => 32 | _ => 64 end.
Definition ctype_holds (t : ctype) (v : Z) : Prop :=
  if ctype_signed t then - 2 ^ (ctype_bits t - 1) <= v < 2 ^ (ctype_bits t - 1)
  else 0 <= v < 2 ^ ctype_bits t.

(** [lex.icon]: the types tried, in this order, for a literal with the suffix. *)
Definition candidates (decimal : bool) (suffix : txt) (l : list ctype) : Prop :=
  match decimal with
  | true =>
      (suffix = [] /\ l = [TInt; TLong; TLongLong]) \/
      (suffix = T "U" /\ l = [TUInt; TULong; TULongLong]) \/
      (suffix = T "LL" /\ l = [TLongLong]) \/
      (suffix = T "ULL" /\ l = [TULongLong])
  | false =>
      (suffix = [] /\ l = [TInt; TUInt; TLong; TULong; TLongLong; TULongLong]) \/
      (suffix = T "U" /\ l = [TUInt; TULong; TULongLong]) \/
      (suffix = T "LL" /\ l = [TLongLong; TULongLong]) \/
      (suffix = T "ULL" /\ l = [TULongLong])
  end.
(** the first type of the list which holds the value *)
Inductive first_type (v : Z) : list ctype -> ctype -> Prop :=
| first_here t l : ctype_holds t v -> first_type v (t :: l) t
| first_next t l t' : ~ ctype_holds t v -> first_type v l t' -> first_type v (t :: l) t'.

(** [literal s t v]: the C++ token [s] is an integer literal of type [t] and
    value [v].  A decimal literal does not start with 0 (unless it is one digit). *)
Inductive literal : txt -> ctype -> Z -> Prop :=
| cpp_dec digits suffix l t v :
    numeral 10 digits v -> (hd_error digits = Some "0"%char -> digits = ["0"%char]) ->
    candidates true suffix l -> first_type v l t ->
    literal (digits ++ suffix) t v
| cpp_hex digits suffix l t v :
    numeral 16 digits v -> candidates false suffix l -> first_type v l t ->
    literal (T "0x" ++ digits ++ suffix) t v.

(** Value of an expression made of a literal or its negation: negation of a
    signed literal is exact if it fits, of an unsigned one it is modulo. *)
Inductive constant : txt -> Z -> Prop :=
| const_lit s t v : literal s t v -> constant s v
| const_neg s t v : literal s t v -> ctype_signed t = true -> ctype_holds t (- v) -> constant ("-"%char :: s) (- v)
| const_neg_u s t v : literal s t v -> ctype_signed t = false -> constant ("-"%char :: s) ((- v) mod 2 ^ ctype_bits t).

(** a constant followed by a comment which does not end early *)
Definition constant_with_comment (s : txt) (v : Z) : Prop :=
  constant s v \/
  exists a b, s = a ++ T " /* " ++ b ++ T " */" /\ constant a v /\ ~ In "*"%char b.

(** * Texts made of words *)

(** cutting a text at every character satisfying [p] *)
Fixpoint cut_at (p : ascii -> bool) (s : txt) : list txt :=
  match s with
  | [] => [[]]
  | c :: s' =>
      if p c then [] :: cut_at p s'
      else match cut_at p s' with
           | [] => [[c]]
           | w :: ws => (c :: w) :: ws
           end
  end.
Definition not_empty (s : txt) : bool := match s with [] => false | _ => true end.
(** words: the pieces between blanks, tabs and newlines *)
Definition white (c : ascii) : bool := existsb (N.eqb (N_of_ascii c)) [32; 9; 10]%N.
Definition words_of (s : txt) : list txt := filter not_empty (cut_at white s).

(** * Searching and replacing *)

(** [occurs what s]: [what] is a part of [s]. *)
Definition occurs (what s : txt) : Prop := exists a b, s = a ++ what ++ b.

(** [pieces what s ps]: cutting [s] at the occurrences of [what], found from
    the left and not overlapping, gives [ps]. *)
Inductive pieces (what : txt) : txt -> list txt -> Prop :=
| pieces_last s : ~ occurs what s -> pieces what s [s]
| pieces_more a s ps : (forall b c, a ++ what ++ s = b ++ what ++ c -> (length a <= length b)%nat) ->
    pieces what s ps -> pieces what (a ++ what ++ s) (a :: ps).

(** * Lines *)

Definition newline : ascii := "010"%char.
Definition lines_of (s : txt) : list txt := cut_at (Ascii.eqb newline) s.
(** blanks, tabs and carriage returns *)
Definition blank_char (c : ascii) : bool := existsb (N.eqb (N_of_ascii c)) [32; 9; 13]%N.
(** a row with something else *)
Definition has_text (r : txt) : bool := existsb (fun c => negb (blank_char c)) r.
(** the rows with something in them, in order *)
Definition text_rows (s : txt) : list txt := filter has_text (lines_of s).
(** a row without the blanks at its end *)
Fixpoint chomp (r : txt) : txt :=
  match r with
  | [] => []
  | c :: r' => if has_text r then c :: chomp r' else []
  end.

(** * Templates *)

Inductive piece := Text (t : txt) | Hole (key : txt).
Fixpoint template_text (l : list piece) : txt :=
  match l with
  | [] => []
  | Text t :: l' => t ++ template_text l'
  | Hole k :: l' => T "#^#" ++ k ++ T "#$#" ++ template_text l'
  end.
(** a text in front of a placeholder, the name in a placeholder and the end of
    the template: the markers do not occur earlier than written *)
Definition plain (t : txt) : Prop := ~ occurs (T "#^#") (t ++ T "#^").
Definition name_ok (k : txt) : Prop := ~ occurs (T "#$#") (k ++ T "#$").
Inductive template : list piece -> Prop :=
| template_end t : ~ occurs (T "#^#") t -> template [Text t]
| template_hole t k l : plain t -> name_ok k -> template l -> template (Text t :: Hole k :: l).

(** number of characters behind the last newline: the column *)
Definition column (s : txt) : nat := length (last (lines_of s) []).
(** every newline followed by [n] blanks *)
Definition indented (n : nat) (v : txt) : txt := join (newline :: repeat " "%char n) (lines_of v).

(** the template with every hole replaced by its value, moved to the column of
    the hole; [done] is the template text in front *)
Fixpoint filled (value : txt -> txt) (done : txt) (l : list piece) : txt :=
  match l with
  | [] => []
  | Text t :: l' => t ++ filled value (done ++ t) l'
  | Hole k :: l' =>
      indented (column done) (value k) ++ filled value (done ++ T "#^#" ++ k ++ T "#$#") l'
  end.
(** the names of the holes *)
Fixpoint holes (l : list piece) : list txt :=
  match l with [] => [] | Text _ :: l' => holes l' | Hole k :: l' => k :: holes l' end.

(** * Generated element presence *)

(** the element is part of protocol version [r] *)
Definition present_at (since depr : Z) (removed : bool) (r : Z) : Prop :=
  since <= r /\ (removed = true -> r < depr).

(** the template with every hole replaced by its value *)
Fixpoint substituted (value : txt -> txt) (l : list piece) : txt :=
  match l with
  | [] => []
  | Text t :: l' => t ++ substituted value l'
  | Hole k :: l' => value k ++ substituted value l'
  end.
