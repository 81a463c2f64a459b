(** The command line of the generators: how a sequence of arguments is to be read. *)
From Coq Require Import Ascii String ZArith List.
Import ListNotations.
From Verif.Model Require Import Base ProgOpts.
From Verif.Spec Require Import Texts.
Open Scope Z_scope.

(** the argument names option number [i]: its letter behind "-" or its name behind "--" *)
Definition names_option (opts : list opt_info) (t : txt) (i : nat) : Prop :=
  exists o, nth_error opts i = Some o /\
    ((o_short o <> [] /\ t = T "-" ++ o_short o) \/ (o_long o <> [] /\ t = T "--" ++ o_long o)).
Definition dashed (t : txt) : Prop := exists r, t = "-"%char :: r.
(** what is read: an option without value, with its value, with the value missing at the end; an input file;
    something that looks like an option but is none *)
Inductive event := Flag (i : nat) | Given (i : nat) (v : txt) | Missing (i : nat) | Arg (t : txt) | Unknown (t : txt).
Definition takes_value (opts : list opt_info) (i : nat) (b : bool) : Prop := exists o, nth_error opts i = Some o /\ o_hasParam o = b.
Inductive reads (opts : list opt_info) : list txt -> list event -> Prop :=
| reads_end : reads opts [] []
| reads_arg t ts es : ~ dashed t -> reads opts ts es -> reads opts (t :: ts) (Arg t :: es)
| reads_flag t i ts es : names_option opts t i -> takes_value opts i false -> reads opts ts es -> reads opts (t :: ts) (Flag i :: es)
| reads_value t i v ts es : names_option opts t i -> takes_value opts i true -> reads opts ts es -> reads opts (t :: v :: ts) (Given i v :: es)
| reads_missing t i : names_option opts t i -> takes_value opts i true -> reads opts [t] [Missing i]
| reads_unknown t ts es : dashed t -> (forall i, ~ names_option opts t i) -> reads opts ts es -> reads opts (t :: ts) (Unknown t :: es).

(** different options have different letters and names *)
Definition clear_names (opts : list opt_info) : Prop :=
  (forall o, In o opts -> o_short o = [] \/ exists c, o_short o = [c] /\ c <> "-"%char) /\
  (forall t i j, names_option opts t i -> names_option opts t j -> i = j).

Definition input_args (es : list event) : list txt := flat_map (fun e => match e with Arg t => [t] | _ => [] end) es.
Definition unknown_args (es : list event) : list txt := flat_map (fun e => match e with Unknown t => [t] | _ => [] end) es.
Definition was_used (i : nat) (es : list event) : Prop := In (Flag i) es \/ In (Missing i) es \/ exists v, In (Given i v) es.
(** the value of an option: the last one given, else the default *)
Definition value_of (i : nat) (es : list event) (default v : txt) : Prop :=
  (exists a b, es = a ++ Given i v :: b /\ forall w, ~ In (Given i w) b) \/ ((forall w, ~ In (Given i w) es) /\ v = default).

(** the parts of a text between separator characters, without empty ones *)
Definition separator (seps : txt) (c : ascii) : Prop := In c seps.
Inductive tokens (seps : txt) : txt -> list txt -> Prop :=
| tokens_end : tokens seps [] []
| tokens_sep c s ts : In c seps -> tokens seps s ts -> tokens seps (c :: s) ts
| tokens_last t : t <> [] -> (forall c, In c t -> ~ In c seps) -> tokens seps t [t]
| tokens_next t c s ts : t <> [] -> (forall d, In d t -> ~ In d seps) -> In c seps -> tokens seps s ts -> tokens seps (t ++ c :: s) (t :: ts).

(** a text of a list file below the directory prefix given *)
Definition under (prefix line path : txt) : Prop :=
  (prefix = [] /\ path = line) \/
  ((exists d, prefix = d ++ T "/") /\ path = prefix ++ line) \/
  (prefix <> [] /\ (forall d, prefix <> d ++ T "/") /\ path = prefix ++ T "/" ++ line).
(** option [i] of the table is the one called [name] *)
Definition option_called (opts : list opt_info) (name : txt) (i : nat) : Prop := exists o, nth_error opts i = Some o /\ o_long o = name.
(** a text that is nothing but decimal digits *)
Definition plain_number (t : txt) (n : Z) : Prop := numeral 10 t n.
(** the namespace a schema name stands for: dots, dashes and blanks become underscores *)
Definition ns_char (c d : ascii) : Prop := (In c (T ".- ") /\ d = "_"%char) \/ (~ In c (T ".- ") /\ d = c).
Definition ns_text (name ns : txt) : Prop := Forall2 ns_char name ns.
(** one element of the namespace option: "schema:new" for a schema, "new" for the protocol *)
Definition renames (e schema new : txt) : Prop :=
  (~ In ":"%char schema /\ new <> [] /\ e = schema ++ T ":" ++ new) \/
  (schema = [] /\ new = e /\ (~ In ":"%char e \/ exists a, ~ In ":"%char a /\ e = a ++ T ":")).
(** the last element for a schema holds *)
Definition renamed (es : list txt) (schema new : txt) : Prop :=
  exists a e b, es = a ++ e :: b /\ renames e schema new /\ forall e' n', In e' b -> ~ renames e' schema n'.
Definition not_renamed (es : list txt) (schema : txt) : Prop := forall e n, In e es -> ~ renames e schema n.
