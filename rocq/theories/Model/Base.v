(** Base definitions of the model: outcomes, C++ integers, texts.
    Nothing here models a function of the repository except where cited. *)
From Coq Require Export Ascii String ZArith Lia Bool List.
From Coq Require Import ZifyBool ZifyNat.
Export ListNotations.
Open Scope Z_scope.

(** Outcome of a C++ member function returning [bool] and writing results.
    [Err]: the function logged an error and returned false.
    [UB]: the execution has undefined behaviour (division by zero, signed
    overflow, out-of-bounds array read, wrong static_cast, over-wide shift).
    Asserts are compiled out (release build, NDEBUG) and are not modelled. *)
Inductive res (A : Type) : Type :=
| Ok (a : A)
| Err
| UB.
Arguments Ok {A} a.
Arguments Err {A}.
Arguments UB {A}.

Definition bind {A B} (m : res A) (k : A -> res B) : res B :=
  match m with Ok a => k a | Err => Err | UB => UB end.
Notation "x <- e ;; k" := (bind e (fun x => k))
  (at level 61, e at next level, right associativity).
Notation "' p <- e ;; k" := (bind e (fun p => k))
  (at level 61, p pattern, e at next level, right associativity).
Definition guard (b : bool) : res unit := if b then Ok tt else Err.
Definition of_opt {A} (o : option A) : res A :=
  match o with Some a => Ok a | None => Err end.

(** [for]-loop over a list with early exit. *)
Fixpoint foldM {A B} (f : A -> B -> res A) (l : list B) (a : A) : res A :=
  match l with
  | [] => Ok a
  | x :: l' => a' <- f a x ;; foldM f l' a'
  end.

Fixpoint mapM {A B} (f : A -> res B) (l : list A) : res (list B) :=
  match l with
  | [] => Ok []
  | x :: l' => y <- f x ;; ys <- mapM f l' ;; Ok (y :: ys)
  end.

(** std::intmax_t / std::int64_t are integers in [[-2^63, 2^63)];
    std::uintmax_t / std::uint64_t / std::size_t are integers in [[0, 2^64)];
    unsigned is [[0, 2^32)] (LP64 two's complement, as the static_asserts in
    lib/src/parse/ParseIntFieldImpl.cpp 44-50 demand). *)
Definition two32 : Z := 4294967296.
Definition two63 : Z := 9223372036854775808.
Definition two64 : Z := 18446744073709551616.
Definition int_max : Z := 9223372036854775807.
Definition int_min : Z := -9223372036854775808.
Definition uint_max : Z := 18446744073709551615.

(** static_cast<std::uintmax_t>(z) *)
Definition to_u64 (z : Z) : Z := z mod two64.
(** static_cast<std::intmax_t>(z) (two's complement) *)
Definition to_s64 (z : Z) : Z :=
  let m := z mod two64 in if two63 <=? m then m - two64 else m.
(** static_cast<unsigned>(z) *)
Definition to_u32 (z : Z) : Z := z mod two32.
(** signed arithmetic: overflow is undefined behaviour *)
Definition s64 (z : Z) : res Z :=
  if (int_min <=? z) && (z <=? int_max) then Ok z else UB.

(** Texts: std::string as a list of bytes. *)
Notation str := (list ascii).
Definition L (s : string) : str := list_ascii_of_string s.

Fixpoint str_eqb (a b : str) : bool :=
  match a, b with
  | [], [] => true
  | x :: a', y :: b' => Ascii.eqb x y && str_eqb a' b'
  | _, _ => false
  end.

Definition is_nil {A} (l : list A) : bool :=
  match l with [] => true | _ => false end.

Fixpoint mem_str (s : str) (l : list str) : bool :=
  match l with [] => false | x :: l' => str_eqb s x || mem_str s l' end.

(** strict lexicographic order on bytes: std::string::operator< *)
Fixpoint str_ltb (a b : str) : bool :=
  match a, b with
  | _, [] => false
  | [], _ :: _ => true
  | x :: a', y :: b' =>
      (N.ltb (N_of_ascii x) (N_of_ascii y)) ||
      (Ascii.eqb x y && str_ltb a' b')
  end.
