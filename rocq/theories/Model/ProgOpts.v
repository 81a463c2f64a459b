(** Model of the command line of the generators: lib/src/gen/GenProgramOptions.cpp,
    app/commsdsl2comms/src/CommsProgramOptions.cpp, and what GenGenerator.cpp makes of it. *)
From Verif.Model Require Import Base Common Units GenUtil GenComms.

(** GenProgramOptions.cpp 198-206 OptInfo; the description only shows up in the help text and is left out *)
Record opt_info := mkOpt { o_short : str; o_long : str; o_value : str; o_hasParam : bool; o_used : bool }.
(** 211-238 genAddInternal: a first token of one character is the short name, the first other one the long name *)
Definition long_name (l : list str) : str := match l with [] => [] | t :: _ => t end.
Definition new_option (tokens : list str) (hasParam : bool) (value : str) : opt_info :=
  match tokens with
  | t :: l => if Nat.eqb (length t) 1 then mkOpt t (long_name l) value hasParam false else mkOpt [] t value hasParam false
  | [] => mkOpt [] [] value hasParam false
  end.
Definition add_option (optStr : str) (hasParam : bool) (value : str) (opts : list opt_info) : res (list opt_info) :=
  t <- genStrSplitByAnyChar optStr (L ",") true ;; Ok (opts ++ [new_option t hasParam value]).

(** 240-253 genPrepareOpts: m_shortOpts and m_longOpts point to the last option with the name *)
Fixpoint find_opt (name : opt_info -> str) (s : str) (i : nat) (opts : list opt_info) : option nat :=
  match opts with
  | [] => None
  | o :: l =>
      match find_opt name s (S i) l with
      | Some j => Some j
      | None => if negb (is_nil (name o)) && str_eqb (name o) s then Some i else None
      end
  end.
Fixpoint update_nth {A} (i : nat) (f : A -> A) (l : list A) : list A :=
  match l, i with
  | [], _ => []
  | x :: l', O => f x :: l'
  | x :: l', S i' => x :: update_nth i' f l'
  end.
Definition set_value (v : str) (o : opt_info) : opt_info := mkOpt (o_short o) (o_long o) v (o_hasParam o) (o_used o).
Definition set_used (o : opt_info) : opt_info := mkOpt (o_short o) (o_long o) (o_value o) (o_hasParam o) true.

(** 93-147 genParse: options, m_args, unknown options reported, and the option that waits for its value *)
Record parse_state := mkPS { p_opts : list opt_info; p_args : list str; p_unknown : list str; p_wait : option nat }.
(** 119-134 processOptFunc *)
Definition process_opt (name : opt_info -> str) (s token : str) (st : parse_state) : parse_state :=
  match find_opt name s 0 (p_opts st) with
  | None => mkPS (p_opts st) (p_args st) (p_unknown st ++ [token]) (p_wait st)
  | Some i =>
      let hasParam := match nth_error (p_opts st) i with Some o => o_hasParam o | None => false end in
      mkPS (update_nth i set_used (p_opts st)) (p_args st) (p_unknown st) (if hasParam then Some i else None)
  end.
(** 100-146: one round of the loop; asserts are compiled out *)
Definition parse_token (st : parse_state) (t : str) : parse_state :=
  match t with
  | [] => st
  | c :: r =>
      match p_wait st with
      | Some i => mkPS (update_nth i (set_value t) (p_opts st)) (p_args st) (p_unknown st) None
      | None =>
          if negb (ch_eqb c "-") then mkPS (p_opts st) (p_args st ++ [t]) (p_unknown st) None
          else match r with
               | [] => mkPS (p_opts st) (p_args st) (p_unknown st ++ [t]) None
               | d :: r' => if ch_eqb d "-" then process_opt o_long r' t st else process_opt o_short r t st
               end
      end
  end.
Definition genParse (opts : list opt_info) (argv : list str) : parse_state :=
  fold_left parse_token argv (mkPS opts [] [] None).

(** 149-156, 263-270 genIsOptUsed *)
Definition used_in (name : opt_info -> str) (s : str) (opts : list opt_info) : bool :=
  match find_opt name s 0 opts with
  | Some i => match nth_error opts i with Some o => o_used o | None => false end
  | None => false
  end.
Definition genIsOptUsed (opts : list opt_info) (s : str) : bool :=
  if Nat.eqb (length s) 1 && used_in o_short s opts then true else used_in o_long s opts.
(** 158-165, 272-281 genValue *)
Definition value_in (name : opt_info -> str) (s : str) (opts : list opt_info) : str :=
  match find_opt name s 0 opts with
  | Some i => match nth_error opts i with Some o => if o_hasParam o then o_value o else [] | None => [] end
  | None => []
  end.
Definition genValue (opts : list opt_info) (s : str) : str :=
  if Nat.eqb (length s) 1 && (match find_opt o_short s 0 opts with Some _ => true | None => false end)
  then value_in o_short s opts else value_in o_long s opts.

(** 344-379, 381-390, CommsProgramOptions.cpp 40-67: the options of commsdsl2comms *)
Definition comms_options : res (list opt_info) :=
  foldM (fun acc (d : str * (bool * str)) => add_option (fst d) (fst (snd d)) (snd (snd d)) acc)
   [(L "h,help", (false, [])); (L "version", (false, [])); (L "q,quiet", (false, [])); (L "d,debug", (false, []));
    (L "w,warn-as-err", (false, [])); (L "o,output-dir", (true, [])); (L "i,input-files-list", (true, []));
    (L "p,input-files-prefix", (true, [])); (L "c,code-input-dir", (true, [])); (L "s,multiple-schemas-enabled", (false, []));
    (L "n,namespace", (true, [])); (L "m,min-remote-version", (true, [])); (L "force-schema-version", (true, []));
    (L "code-inject-comments", (false, [])); (L "V,code-version", (true, []));
    (L "customization", (true, L "limited")); (L "version-independent-code", (false, [])); (L "extra-messages-bundle", (true, []));
    (L "force-main-ns-in-options", (false, []))] [].

(** 486-515 genGetInputFiles; [read] gives the contents of a file that can be opened *)
Definition genGetInputFiles (read : str -> option str) (st : parse_state) : res (list str) :=
  let fileName := genValue (p_opts st) (L "input-files-list") in
  listed <- (if is_nil fileName then Ok []
             else match read fileName with
                  | None => Ok []
                  | Some contents =>
                      l <- genStrSplitByAnyChar contents [chr 13; nl] true ;;
                      let prefix := genValue (p_opts st) (L "input-files-prefix") in
                      Ok (if is_nil prefix then l else map (genPathAddElem prefix) l)
                  end) ;;
  Ok (listed ++ p_args st).

(** util.cpp 275-283 genStrToUnsigned: std::stoul in base 10, 0 if there is no number *)
Definition stoul10 (s : str) : option Z :=
  let (neg, r) := sign (skip_space s) in
  match digits 10 None r with
  | None => None
  | Some m => if m <=? uint_max then Some (if neg then to_u64 (- m) else m) else None
  end.
Definition genStrToUnsigned (s : str) : Z := match stoul10 s with Some v => to_u32 v | None => 0 end.
(** 537-554 and GenGenerator.cpp 1390-1397, 435-438: the versions the code is generated for *)
Definition versions_of (opts : list opt_info) (parsed : Z) : gen_versions :=
  let minRemote := if genIsOptUsed opts (L "min-remote-version") then genStrToUnsigned (genValue opts (L "min-remote-version")) else 0 in
  let forced := if genIsOptUsed opts (L "force-schema-version") then Some (genStrToUnsigned (genValue opts (L "force-schema-version"))) else None in
  mkGV parsed forced minRemote.
(** GenGenerator.cpp 746-760 genGetCodeVersionTokens; GenVersionIdx_NumOfValues is 3 *)
Fixpoint pad_tokens (n : nat) (l : list str) : list str :=
  match n with
  | O => l
  | S n' => match l with [] => L "0" :: pad_tokens n' [] | t :: l' => t :: pad_tokens n' l' end
  end.
Definition genGetCodeVersionTokens (version : str) : res (list str) :=
  if is_nil version then Ok [] else l <- genStrSplitByAnyChar version (L ".") true ;; Ok (pad_tokens 3 l).
(** GenGenerator.cpp 208-238 genSetNamespaceOverride: pairs of name and new name; the last one for a name holds *)
Definition override_pair (e : str) : str * str :=
  match split_at ":"%char e with
  | Some (first, second) => if is_nil second then ([], e) else (first, second)
  | None => ([], e)
  end.
Definition genSetNamespaceOverride (value : str) : res (list (str * str)) :=
  l <- genStrSplitByAnyChar value (L ",") true ;; Ok (rev (map override_pair l)).
(** GenGenerator.cpp 410-432 (genPrepare) and GenSchema.cpp 299-306: the main namespace of every schema;
    the last schema is the protocol.  An override is never empty (override_pair), so "not yet set" is None. *)
Fixpoint main_namespaces (overrides : list (str * str)) (names : list str) : res (list str) :=
  match names with
  | [] => Ok []
  | n :: l =>
      orig <- genStrToName n ;;
      let named := match assoc orig overrides with Some ns => ns | None => orig end in
      let main := match l with
                  | [] => match assoc [] overrides with Some ns => ns | None => named end
                  | _ => named
                  end in
      r <- main_namespaces overrides l ;;
      Ok (main :: r)
  end.
(** GenGenerator.cpp 1386-1388: without --namespace there are no overrides *)
Definition overrides_of (opts : list opt_info) : res (list (str * str)) :=
  if genIsOptUsed opts (L "namespace") then genSetNamespaceOverride (genValue opts (L "namespace")) else Ok [].
