(** Generated code up to its layout: the sequence of its tokens.  A maximal run
    of letters, digits and underscores is one token, every other character
    which is not white one of its own.  (Two texts with the same tokens read
    the same to a C++ compiler, unless they differ within a comment which ends
    with its row, in a string literal, or in whether an operator of several
    characters is written in one piece.) *)
From Coq Require Import Ascii String ZArith List Bool.
Import ListNotations.
From Verif.Spec Require Import Texts GenSpec.

Definition ident_char (c : ascii) : bool :=
  let n := N_of_ascii c in
  ((48 <=? n) && (n <=? 57) || (65 <=? n) && (n <=? 90) || (97 <=? n) && (n <=? 122) || (n =? 95))%N.
(** blank, tab, newline and carriage return *)
Definition space_char (c : ascii) : bool := existsb (N.eqb (N_of_ascii c)) [32; 9; 10; 13]%N.

Fixpoint tokens (s : txt) : list txt :=
  match s with
  | [] => []
  | c :: s' =>
      if space_char c then tokens s'
      else if negb (ident_char c) then [c] :: tokens s'
      else match s' with
           | d :: _ => if ident_char d then match tokens s' with w :: ws => (c :: w) :: ws | [] => [[c]] end
                       else [c] :: tokens s'
           | [] => [[c]]
           end
  end.
