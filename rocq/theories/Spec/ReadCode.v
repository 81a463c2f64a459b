(** The generated functions which read and refresh the members of a message or bundle: their
    statements and what these do, given what reading, preparing and refreshing a single member
    does.  Independent of the model's functions. *)
From Coq Require Import Ascii String ZArith List Bool.
Import ListNotations.
From Verif.Model Require Import Base Field.
From Verif.Spec Require Import Texts Ints GenSpec CppSpec CondCode PrefixCode.
Open Scope Z_scope.

(** ** Members *)
(** members which have to be prepared before they are read: those whose extent or existence depends on
    other members *)
Definition needs_prepare (f : field) : bool :=
  match f with
  | FOptional _ _ _ _ c => match c with Some _ => true | None => false end
  | _ => existsb (fun p => match fst p with [] => false | _ => true end) (prefixes f)
  end.
(** the prefixes name members (paths of names) *)
Definition prefixes_known (sibs : list field) (f : field) : Prop :=
  forall s func, In (s, func) (prefixes f) -> s = [] \/ exists n path, path_text s (n :: path) /\ In n (map f_name sibs).

(** ** What reading does *)
Inductive status := Success | Failed (code : txt).
(** [S]: the state of the object and of the input.  For the member with the given index: reading it
    with the given number of bytes left gives a status, the new state and the number of bytes
    left; preparing it changes the state.  [rd_update]: the fields are told the version of the
    message; [rd_valid]: validity of the message, [rd_base_valid]: as far as the base class checks it. *)
Record reader (S : Type) := mkReader {
  rd_field : nat -> S -> Z -> status * S * Z; rd_prepare : nat -> S -> S; rd_update : S -> S;
  rd_valid : S -> bool; rd_base_valid : S -> bool }.
Arguments rd_field {S}. Arguments rd_prepare {S}. Arguments rd_update {S}. Arguments rd_valid {S}. Arguments rd_base_valid {S}.

(** What is wanted: member after member is read, each one immediately after it was prepared if it needs
    that ([needs]), until one of them cannot be read. *)
Fixpoint read_members {S} (rd : reader S) (needs : list bool) (i : nat) (s : S) (len : Z) : status * S :=
  match needs with
  | [] => (Success, s)
  | n :: needs' =>
      match rd_field rd i (if n then rd_prepare rd i s else s) len with
      | (Success, s', len') => read_members rd needs' (i + 1) s' len'
      | (e, s', _) => (e, s')
      end
  end.

(** ** The statements *)
Inductive rstmt :=
| RPrepare (m : txt) | RUntil (m : txt) | RFromUntil (m m' : txt) | RFrom (m : txt) | RAll | RCheck.
(** [msg]: of a message, otherwise of a bundle *)
Definition print_r (msg : bool) (s : rstmt) : txt :=
  let read := if msg then T "doRead" else T "read" in
  match s with
  | RPrepare m => T "readPrepare_" ++ m ++ T "();"
  | RUntil m => T "es = Base::template " ++ read ++ T "UntilAndUpdateLen<FieldIdx_" ++ m ++ T ">(iter, len);"
  | RFromUntil m m' => T "es = Base::template " ++ read ++ T "FromUntilAndUpdateLen<FieldIdx_" ++ m ++ T ", FieldIdx_" ++ m' ++ T ">(iter, len);"
  | RFrom m => T "es = Base::template " ++ read ++ T "From<FieldIdx_" ++ m ++ T ">(iter, len);"
  | RAll => T "es = Base::" ++ read ++ T "(iter, len);"
  | RCheck => T "if (es != comms::ErrorStatus::Success) { break; }"
  end.
Definition print_rs (msg : bool) (l : list rstmt) : txt := join [newline] (map (print_r msg) l).
(** "auto es = ...; do { l } while (false);" and what follows *)
Definition print_loop (msg : bool) (l : list rstmt) (rest : txt) : txt :=
  T "auto es = comms::ErrorStatus::Success; do {" ++ [newline] ++ print_rs msg l ++ [newline] ++ T "} while (false);" ++ rest.

(** The functions of the base classes (COMMS library): reading the [n] members from index [i] on,
    one after another until one of them fails. *)
Fixpoint read_range {S} (rd : reader S) (i n : nat) (s : S) (len : Z) : status * S * Z :=
  match n with
  | O => (Success, s, len)
  | Datatypes.S n' => match rd_field rd i s len with (Success, s', len') => read_range rd (i + 1) n' s' len' | r => r end
  end.
(** FieldIdx_m is the index of the member with that access name *)
Fixpoint index_of (m : txt) (names : list txt) : option nat :=
  match names with
  | [] => None
  | n :: names' => if list_eq_dec ascii_dec n m then Some O else option_map S (index_of m names')
  end.
(** [run_loop rd names l (es, s, len)]: the loop body [l] executed with these values of the variables; the functions
    with "AndUpdateLen" change [len], the others leave it.  [None]: does not compile. *)
Fixpoint run_loop {S} (rd : reader S) (names : list txt) (l : list rstmt) (st : status * S * Z) : option (status * S * Z) :=
  match l with
  | [] => Some st
  | c :: l' =>
      let '(es, s, len) := st in
      match c with
      | RPrepare m => match index_of m names with Some i => run_loop rd names l' (es, rd_prepare rd i s, len) | None => None end
      | RUntil m => match index_of m names with Some j => run_loop rd names l' (read_range rd 0 j s len) | None => None end
      | RFromUntil m m' =>
          match index_of m names, index_of m' names with
          | Some i, Some j => if (i <=? j)%nat then run_loop rd names l' (read_range rd i (j - i) s len) else None
          | _, _ => None
          end
      | RFrom m =>
          match index_of m names with
          | Some i => let '(es', s', _) := read_range rd i (length names - i) s len in run_loop rd names l' (es', s', len)
          | None => None
          end
      | RAll => let '(es', s', _) := read_range rd 0 (length names) s len in run_loop rd names l' (es', s', len)
      | RCheck => match es with Success => run_loop rd names l' st | _ => Some st end
      end
  end.

(** ** The function of a message *)
(** condition for being read, its loop and the check for validity (with "Base::"?); without loop the
    function of the base class is called *)
Record read_func := mkRead { rf_cond : option txt; rf_update : bool; rf_loop : option (list rstmt); rf_fail : option bool }.
Definition print_func (f : read_func) : txt :=
  T "/// @brief Generated read functionality." ++ [newline] ++
  T "template <typename TIter> comms::ErrorStatus doRead(TIter& iter, std::size_t len) {" ++ [newline] ++
  match rf_cond f with
  | Some c => T "bool validRead = " ++ c ++ T "; if (!validRead) { return comms::ErrorStatus::InvalidMsgData; }" ++ [newline]
  | None => []
  end ++
  match rf_loop f with
  | None => T "return Base::doRead(iter, len);"
  | Some l =>
      (if rf_update f then T "Base::doFieldsVersionUpdate();" ++ [newline] else []) ++
      print_loop true l
        (match rf_fail f with
         | Some b => T "if (!" ++ (if b then T "Base::" else []) ++ T "doValid()) { es = comms::ErrorStatus::InvalidMsgData; }"
         | None => []
         end ++ T "return es;")
  end ++ [newline] ++ T "}".
Definition invalid : status := Failed (T "InvalidMsgData").
(** [allowed]: the value of the condition *)
Definition run_func {S} (rd : reader S) (names : list txt) (f : read_func) (allowed : bool) (s : S) (len : Z) : option (status * S) :=
  if match rf_cond f with Some _ => negb allowed | None => false end then Some (invalid, s)
  else match rf_loop f with
       | None => let '(es, s', _) := read_range rd 0 (length names) s len in Some (es, s')
       | Some l =>
           match run_loop rd names l (Success, (if rf_update f then rd_update rd s else s), len) with
           | Some (es, s', _) =>
               Some (match rf_fail f with
                     | Some b => if (if b then rd_base_valid rd s' else rd_valid rd s') then es else invalid
                     | None => es
                     end, s')
           | None => None
           end
       end.

(** ** Refreshing *)
(** the functions of the base class and of the members named return whether they changed something *)
Record refresher (S : Type) := mkRefresher { rf_base : S -> bool * S; rf_member : nat -> S -> bool * S }.
Arguments rf_base {S}. Arguments rf_member {S}.
(** what is wanted: the function of the base class and then that of each member which has one *)
Fixpoint refresh_members {S} (rf : refresher S) (has : list bool) (i : nat) (u : bool) (s : S) : bool * S :=
  match has with
  | [] => (u, s)
  | h :: has' =>
      if h then let (u', s') := rf_member rf i s in refresh_members rf has' (i + 1) (u' || u) s'
      else refresh_members rf has' (i + 1) u s
  end.
Definition print_refresh (msg : bool) (l : list txt) : txt :=
  let body := T "bool updated = Base::" ++ (if msg then T "doRefresh" else T "refresh") ++ T "();" ++ [newline] ++
    concat (map (fun m => T "updated = refresh_" ++ m ++ T "() || updated;" ++ [newline]) l) ++ [newline] ++ T "return updated;" in
  if msg then T "/// @brief Generated refresh functionality." ++ [newline] ++ T "bool doRefresh() {" ++ [newline] ++ body ++ T "}" else body.
(** "updated = refresh_m() || updated;" for each [m] of [l] *)
Fixpoint run_refresh {S} (rf : refresher S) (names l : list txt) (u : bool) (s : S) : option (bool * S) :=
  match l with
  | [] => Some (u, s)
  | m :: l' => match index_of m names with
               | Some i => let (u', s') := rf_member rf i s in run_refresh rf names l' (u' || u) s'
               | None => None
               end
  end.

(** definitions of the functions called *)
Definition print_def (type name code : txt) : txt := type ++ T " " ++ name ++ T "() {" ++ [newline] ++ code ++ [newline] ++ T "}".

(** ** Validity *)
(** the function of the class: the base class and the expression *)
Definition print_valid (msg : bool) (e : txt) : txt :=
  let body := T "if (!Base::" ++ (if msg then T "doValid" else T "valid") ++ T "()) { return false; } return " ++ [newline] ++ e ++ T ";" in
  if msg then T "// Generated validity check functionality" ++ [newline] ++ T "bool doValid() const {" ++ [newline] ++ body ++ T "}" else body.
