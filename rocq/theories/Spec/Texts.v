(** Specification of number literals, names, blanks and ranges, written
    without any helper of the model. *)
From Coq Require Import Ascii String ZArith List.
Import ListNotations.
Open Scope Z_scope.

Notation txt := (list ascii).
Definition T (s : string) : txt := list_ascii_of_string s.

(** [c] is the digit with value [v] in base [base] (2..16). *)
Definition is_digit (base : Z) (c : ascii) (v : Z) : Prop :=
  0 <= v < base /\
  (nth_error (T "0123456789abcdef") (Z.to_nat v) = Some c \/
   nth_error (T "0123456789ABCDEF") (Z.to_nat v) = Some c).

(** [ds] is a numeral of base [base] with value [v] (most significant first). *)
Inductive numeral (base : Z) : txt -> Z -> Prop :=
| num_one c v : is_digit base c v -> numeral base [c] v
| num_snoc ds c n v : numeral base ds n -> is_digit base c v ->
    numeral base (ds ++ [c]) (n * base + v).

Definition starts_with_digit (base : Z) (t : txt) : Prop :=
  exists c v r, t = c :: r /\ is_digit base c v.

Definition space (c : ascii) : Prop := In (N_of_ascii c) [9; 10; 11; 12; 13; 32]%N.

(** Unsigned part of a literal: longest match of 0x.., 0.., or decimal. *)
Inductive unsigned_literal : txt -> Z -> Prop :=
| lit_hex x ds rest n : In x (T "xX") -> numeral 16 ds n -> ~ starts_with_digit 16 rest ->
    unsigned_literal ("0"%char :: x :: ds ++ rest) n
| lit_oct ds rest n : numeral 8 ("0"%char :: ds) n -> ~ starts_with_digit 8 rest ->
    (forall x r, ds = [] -> rest = x :: r -> In x (T "xX") -> ~ starts_with_digit 16 r) ->
    unsigned_literal ("0"%char :: ds ++ rest) n
| lit_dec ds rest n : numeral 10 ds n -> hd_error ds <> Some "0"%char ->
    ~ starts_with_digit 10 rest -> unsigned_literal (ds ++ rest) n.

(** [denotes t z]: the longest numeric prefix of [t] is a literal of value [z]. *)
Inductive denotes : txt -> Z -> Prop :=
| den_plain ws u n : Forall space ws -> unsigned_literal u n -> denotes (ws ++ u) n
| den_plus ws u n : Forall space ws -> unsigned_literal u n -> denotes (ws ++ "+"%char :: u) n
| den_minus ws u n : Forall space ws -> unsigned_literal u n -> denotes (ws ++ "-"%char :: u) (- n).

(** Identifiers. *)
Definition letter_or_underscore (c : ascii) : Prop :=
  In c (T "ABCDEFGHIJKLMNOPQRSTUVWXYZabcdefghijklmnopqrstuvwxyz_").
Definition dec_digit (c : ascii) : Prop := In c (T "0123456789").
Definition word (w : txt) : Prop := w <> [] /\ Forall (fun c => letter_or_underscore c \/ dec_digit c) w.
Definition identifier (w : txt) : Prop :=
  word w /\ exists c, hd_error w = Some c /\ letter_or_underscore c.

(** dot separated words *)
Fixpoint join (sep : txt) (ws : list txt) : txt :=
  match ws with
  | [] => []
  | [w] => w
  | w :: ws' => w ++ sep ++ join sep ws'
  end.

(** dotted path of words, the first starting with a letter or underscore *)
Definition dotted (s : txt) : Prop :=
  exists ws, ws <> [] /\ Forall word ws /\ s = join (T ".") ws /\
             exists c r, s = c :: r /\ letter_or_underscore c.

(** Blanks removed by clean-up: space, CR, LF, TAB. *)
Definition blank (c : ascii) : Prop := In (N_of_ascii c) [32; 13; 10; 9]%N.

(** does not start / end with a character of the class *)
Definition first_not (P : ascii -> Prop) (s : txt) : Prop := forall c r, s = c :: r -> ~ P c.
Definition last_not (P : ascii -> Prop) (s : txt) : Prop := forall c r, s = r ++ [c] -> ~ P c.


(** [squeezed s t]: [t] is [s] with every maximal run of blanks replaced by one space *)
Inductive squeezed : txt -> txt -> Prop :=
| sq_nil : squeezed [] []
| sq_char c s t : ~ blank c -> squeezed s t -> squeezed (c :: s) (c :: t)
| sq_run bs s t : bs <> [] -> Forall blank bs -> first_not blank s -> squeezed s t ->
    squeezed (bs ++ s) (" "%char :: t).


(** [range_text t lo hi]: [t] is "[" a "," b "]", no other comma, no other closing
    bracket after the comma, [lo]/[hi] are [a]/[b] without the blanks (space, tab)
    around the comma. *)
Definition sp_tab (c : ascii) : Prop := c = " "%char \/ c = "009"%char.
Definition range_text (t lo hi : txt) : Prop :=
  exists a b, t = T "[" ++ a ++ T "," ++ b ++ T "]" /\ a ++ b <> [] /\
    ~ In ","%char a /\ ~ In ","%char b /\ ~ In "]"%char b /\
    (exists bs, a = lo ++ bs /\ Forall sp_tab bs /\ last_not sp_tab lo) /\
    (exists hs, b = hs ++ hi /\ Forall sp_tab hs /\ first_not sp_tab hi).
