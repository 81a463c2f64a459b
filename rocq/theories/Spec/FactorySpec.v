(** Statements of generated functions, their text and what running them does;
    lists of the messages of a namespace.  Independent of the model's functions. *)
From Coq Require Import Ascii String ZArith List Bool Sorted.
Import ListNotations.
From Verif.Model Require Import Base Common Message Protocol GenComms CommsFactory.
From Verif.Spec Require Import Texts GenSpec ProtocolSpec.
Local Open Scope Z_scope.
Local Open Scope list_scope.

(** * Statements *)
(** conditions on the parameter idx: idx == t, idx != t, t <= idx *)
Inductive idx_cond := IdxIs (t : txt) | IdxIsNot (t : txt) | AtMostIdx (t : txt).
(** what a switch looks at: the parameter id, cast to std::intmax_t, or idx *)
Inductive subject := ById | ByIdx.
Inductive stmt :=
| Do (e : txt)                                                   (* e; *)
| Return (e : txt)                                               (* return e; *)
| Break                                                          (* break; *)
| If (c : idx_cond) (body : list stmt)                           (* if (c) { body } *)
| Block (body : list stmt)                                       (* { body } *)
| Switch (x : subject) (cases : list (txt * list stmt)) (others : list stmt).
                                            (* switch (x) { case t: body ... default: others } *)

Definition cond_text (c : idx_cond) : txt :=
  match c with
  | IdxIs t => T "idx == " ++ t
  | IdxIsNot t => T "idx != " ++ t
  | AtMostIdx t => t ++ T " <= idx"
  end.
Definition subject_text (x : subject) : txt :=
  match x with ById => T "static_cast<std::intmax_t>(id)" | ByIdx => T "idx" end.
Fixpoint printed (s : stmt) : txt :=
  match s with
  | Do e => e ++ T "; "
  | Return e => T "return " ++ e ++ T "; "
  | Break => T "break; "
  | If c body => T "if (" ++ cond_text c ++ T ") { " ++ concat (map printed body) ++ T "} "
  | Block body => T "{ " ++ concat (map printed body) ++ T "} "
  | Switch x cases others =>
      T "switch (" ++ subject_text x ++ T ") { " ++
      concat (map (fun k => T "case " ++ fst k ++ T ": " ++ concat (map printed (snd k))) cases) ++
      T "default: " ++ concat (map printed others) ++ T "} "
  end.
Definition program_text (l : list stmt) : txt := concat (map printed l).

(** * Running them *)
(** how a list of statements ends *)
Inductive outcome := Ended | Broke | Returned (e : txt).
(** the cast to std::intmax_t keeps the value modulo 2^64 *)
Definition cast_signed (v w : Z) : Prop := - 2 ^ 63 <= w < 2 ^ 63 /\ exists k, w = v + k * 2 ^ 64.
Definition subject_value (id idx : Z) (x : subject) (v : Z) : Prop :=
  match x with ById => cast_signed id v | ByIdx => v = idx end.
Definition holds (idx : Z) (c : idx_cond) : Prop :=
  match c with
  | IdxIs t => constant t idx
  | IdxIsNot t => ~ constant t idx
  | AtMostIdx t => exists v, constant t v /\ v <= idx
  end.
(** the statements a switch on the value [v] goes through: those of the case and,
    unless they leave, of the following ones *)
Inductive selects (v : Z) (others : list stmt) : list (txt * list stmt) -> list stmt -> Prop :=
| sel_default : selects v others [] others
| sel_here t body cases : constant_with_comment t v -> selects v others ((t, body) :: cases) (body ++ flat_map snd cases ++ others)
| sel_next t body cases l : ~ constant_with_comment t v -> selects v others cases l -> selects v others ((t, body) :: cases) l.
(** [runs id idx l done o]: the statements [l] evaluate the expressions [done] and end with [o] *)
Inductive runs (id idx : Z) : list stmt -> list txt -> outcome -> Prop :=
| run_end : runs id idx [] [] Ended
| run_do e l done o : runs id idx l done o -> runs id idx (Do e :: l) (e :: done) o
| run_return e l : runs id idx (Return e :: l) [] (Returned e)
| run_break l : runs id idx (Break :: l) [] Broke
| run_if c body l done o : holds idx c -> runs id idx (body ++ l) done o -> runs id idx (If c body :: l) done o
| run_skip c body l done o : ~ holds idx c -> runs id idx l done o -> runs id idx (If c body :: l) done o
| run_block body l done o : runs id idx (body ++ l) done o -> runs id idx (Block body :: l) done o
| run_switch x cases others v body l done o done' o' :
    subject_value id idx x v -> selects v others cases body -> runs id idx body done o ->
    o = Ended \/ o = Broke -> runs id idx l done' o' ->
    runs id idx (Switch x cases others :: l) (done ++ done') o'
| run_switch_return x cases others v body l done e :
    subject_value id idx x v -> selects v others cases body -> runs id idx body done (Returned e) ->
    runs id idx (Switch x cases others :: l) done (Returned e).

(** the labels of every switch are different numbers *)
Definition distinct_labels (ts : list txt) : Prop :=
  Forall (fun t => exists v, constant_with_comment t v) ts /\
  ForallOrdPairs (fun t u => forall v, constant_with_comment t v -> ~ constant_with_comment u v) ts.
Inductive compiles : stmt -> Prop :=
| co_do e : compiles (Do e)
| co_return e : compiles (Return e)
| co_break : compiles Break
| co_if c body : Forall compiles body -> compiles (If c body)
| co_block body : Forall compiles body -> compiles (Block body)
| co_switch x cases others : distinct_labels (map fst cases) -> (forall t body, In (t, body) cases -> Forall compiles body) ->
    Forall compiles others -> compiles (Switch x cases others).

(** * The messages of a namespace *)
(** by id, then by the attribute order *)
Definition id_order (a b : list txt * message) : Prop :=
  m_id (snd a) < m_id (snd b) \/ m_id (snd a) = m_id (snd b) /\ m_order (snd a) <= m_order (snd b).
(** [listing sc path sel l]: [l] has exactly the messages [sel] in the namespace
    [path] of the schema and in those inside it, each once, in order *)
Definition listing (sc : schema) (path : list txt) (sel : list txt -> message -> Prop) (l : list (list txt * message)) : Prop :=
  NoDup l /\ StronglySorted id_order l /\
  forall q m, In (q, m) l <-> (exists rest, q = path ++ rest) /\ message_at sc q m /\ sel q m.
Definition with_id (id : Z) (l : list (list txt * message)) : list (list txt * message) :=
  filter (fun x => m_id (snd x) =? id) l.
(** the name with its first letter in upper case *)
Definition capital (name : txt) : txt := match name with [] => [] | c :: r => toupper c :: r end.
(** the generated class of a message *)
Definition message_class (main : txt) (q : list txt) (m : message) : txt :=
  join (T "::") (main :: filter not_empty q ++ [T "message"; capital (m_name m)]).
(** the messages a list is for: those of a platform (of all of them without one) ... *)
Definition on_platform (p : option txt) (m : message) : Prop :=
  match p with None => True | Some p => m_platforms m = [] \/ In p (m_platforms m) end.
(** ... which the side can receive *)
Definition received (t : target) (m : message) : Prop :=
  match t with
  | AllMsgs => True
  | ClientInput => m_sender m = Server \/ m_sender m = Both
  | ServerInput => m_sender m = Client \/ m_sender m = Both
  end.
Definition wanted (p : option txt) (t : target) (q : list txt) (m : message) : Prop := on_platform p m /\ received t m.
(** what the functions around the code are given: the elements around a namespace *)
Definition around (path : list txt) : list (elem_type * txt) :=
  rev (map (fun k => (ENamespace, k)) (removelast path)).
(** * The two dispatch functions *)
(** dispatchNAMEMessage(id, idx, msg, handler) and dispatchNAMEMessage(id, msg, handler)
    may call each other; [dispatched_by ... idx done e]: the call with the
    index [idx], or without one, evaluates [done] and returns [e] *)
Definition call_plain (name : txt) : txt := T "dispatch" ++ name ++ T "Message<TProtOptions>(id, msg, handler)".
Definition call_first (name : txt) : txt := T "dispatch" ++ name ++ T "Message<TProtOptions>(id, 0U, msg, handler)".
Inductive dispatched_by (name : txt) (indexed plain : list stmt) (id : Z) : option Z -> list txt -> txt -> Prop :=
| db_indexed idx done e : runs id idx indexed done (Returned e) -> e <> call_plain name -> dispatched_by name indexed plain id (Some idx) done e
| db_indexed_on idx done done' e : runs id idx indexed done (Returned (call_plain name)) -> dispatched_by name indexed plain id None done' e ->
    dispatched_by name indexed plain id (Some idx) (done ++ done') e
| db_plain done e : (forall idx, 0 <= idx -> runs id idx plain done (Returned e)) -> e <> call_first name -> dispatched_by name indexed plain id None done e
| db_plain_on done done' e : (forall idx, 0 <= idx -> runs id idx plain done (Returned (call_first name))) -> dispatched_by name indexed plain id (Some 0) done' e ->
    dispatched_by name indexed plain id None (done ++ done') e.
