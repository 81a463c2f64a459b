(** Text utilities of the code generator: lib/src/gen/util.cpp.
    std::string is a list of bytes.  A position in a string is represented
    by the text in front of it and the text behind it; a loop
    [while (pos < str.size())] becomes recursion on the text behind [pos].
    Recursion is bounded by a counter started above the length of the text;
    running out of it stands for a loop that does not end ([UB]). *)
From Verif.Model Require Import Base Common.
Local Open Scope Z_scope.
Local Open Scope list_scope.
Local Open Scope bool_scope.

Definition nl : ascii := chr 10.

(** Text behind the prefix [p] of [s], if [p] is a prefix. *)
Fixpoint strip (p s : str) : option str :=
  match p, s with
  | [], _ => Some s
  | x :: p', y :: s' => if ch_eqb x y then strip p' s' else None
  | _ :: _, [] => None
  end.

(** std::string::find(what, pos): the text between [pos] and the first
    occurrence, and the text behind that occurrence. *)
Fixpoint find_sub (what s : str) : option (str * str) :=
  match strip what s with
  | Some r => Some ([], r)
  | None =>
      match s with
      | [] => None
      | c :: s' => match find_sub what s' with
                   | Some (b, a) => Some (c :: b, a)
                   | None => None
                   end
      end
  end.

(** genStrReplace, lib/src/gen/util.cpp 188-204. *)
Fixpoint replace_loop (n : nat) (what with_ s : str) : res str :=
  match n with
  | O => UB
  | S n' =>
      match s with
      | [] => Ok []
      | _ =>
          match find_sub what s with
          | None => Ok s
          | Some (b, a) => r <- replace_loop n' what with_ a ;; Ok (b ++ with_ ++ r)
          end
      end
  end.
Definition genStrReplace (s what with_ : str) : res str :=
  replace_loop (S (length s)) what with_ s.

(** genStrToName, util.cpp 206-212. *)
Definition genStrToName (s : str) : res str :=
  a <- genStrReplace s (L ".") (L "_") ;;
  b <- genStrReplace a (L "-") (L "_") ;;
  genStrReplace b (L " ") (L "_").

(** genStrSplitByAnyChar, util.cpp 214-238. *)
Fixpoint split_any_loop (n : nat) (chars : str) (compressed : bool) (s : str) : res (list str) :=
  match n with
  | O => UB
  | S n' =>
      match s with
      | [] => Ok []
      | c :: s' =>
          let hit := existsb (ch_eqb c) chars in
          if compressed && hit then split_any_loop n' chars compressed s'
          else
            let fix cut (t : str) : str * option str :=
              match t with
              | [] => ([], None)
              | d :: t' => if existsb (ch_eqb d) chars then ([], Some t')
                           else let '(b, a) := cut t' in (d :: b, a)
              end in
            let '(b, a) := cut s in
            match a with
            | None => Ok [b]
            | Some t => r <- split_any_loop n' chars compressed t ;; Ok (b :: r)
            end
      end
  end.
Definition genStrSplitByAnyChar (s chars : str) (compressed : bool) : res (list str) :=
  split_any_loop (S (length s)) chars compressed s.

(** genStrSplit, util.cpp 240-268. *)
Fixpoint split_loop (n : nat) (sep : str) (compressed : bool) (s : str) : res (list str) :=
  match n with
  | O => UB
  | S n' =>
      match s with
      | [] => Ok []
      | _ =>
          match find_sub sep s with
          | None => Ok [s]
          | Some ([], a) =>
              if compressed then split_loop n' sep compressed a
              else r <- split_loop n' sep compressed a ;; Ok ([] :: r)
          | Some (b, a) => r <- split_loop n' sep compressed a ;; Ok (b :: r)
          end
      end
  end.
Definition genStrSplit (s sep : str) (compressed : bool) : res (list str) :=
  split_loop (S (length s)) sep compressed s.

(** genStrInsertIndent, util.cpp 270-273. *)
Definition indent_str : str := L "    ".
Definition genStrInsertIndent (s : str) : res str :=
  r <- genStrReplace s [nl] (nl :: indent_str) ;; Ok (indent_str ++ r).

(** genStrStartsWith / genStrEndsWith, util.cpp 285-301. *)
Definition genStrStartsWith (s prefix : str) : bool :=
  match strip prefix s with Some _ => true | None => false end.
Definition genStrEndsWith (s suffix : str) : bool := genStrStartsWith (rev s) (rev suffix).

(** genStrToMacroName, util.cpp 329-340. *)
Fixpoint macro_loop (started : bool) (s : str) : str :=
  match s with
  | [] => []
  | c :: s' =>
      (if started && in_rng 65 90 c then ["_"%char] else []) ++ toupper c :: macro_loop true s'
  end.
Definition genStrToMacroName (s : str) : str := macro_loop false s.

(** genNameToNs, util.cpp 467-486. *)
Fixpoint ns_loop (started : bool) (s : str) : str :=
  match s with
  | [] => []
  | c :: s' =>
      let low := tolower c in
      if ch_eqb low c then c :: ns_loop true s'
      else (if started then ["_"%char] else []) ++ low :: ns_loop true s'
  end.
Definition genNameToNs (s : str) : str := ns_loop false s.

(** genScopeToRelPath, util.cpp 488-491. *)
Definition genScopeToRelPath (s : str) : res str := genStrReplace s (L "::") (L "/").

(** std::to_string and stream output of an unsigned integer in base 10 or 16. *)
Definition digit_chr (upper : bool) (d : Z) : ascii :=
  if d <? 10 then chr (48 + d) else if upper then chr (55 + d) else chr (87 + d).
Fixpoint to_base (n : nat) (base : Z) (upper : bool) (v : Z) (acc : str) : str :=
  match n with
  | O => acc
  | S n' =>
      let acc' := digit_chr upper (v mod base) :: acc in
      if v / base =? 0 then acc' else to_base n' base upper (v / base) acc'
  end.
(** at most 64 digits are needed for a 64 bit number *)
Definition dec_str (v : Z) : str := to_base 64 10 false v [].
Definition hex_str (upper : bool) (v : Z) : str := to_base 64 16 upper v [].
Definition signed_dec (v : Z) : str := if v <? 0 then "-"%char :: dec_str (- v) else dec_str v.
(** std::setfill('0') << std::setw(w) *)
Definition pad0 (w : Z) (s : str) : str :=
  repeat "0"%char (Z.to_nat w - length s)%nat ++ s.

(** genNumToString(std::uintmax_t, unsigned), util.cpp 342-372. *)
Definition genNumToStringU (v hexWidth : Z) : str :=
  if (hexWidth =? 0) && (v <=? 65535) then dec_str v
  else if (hexWidth =? 0) && (v <=? 4294967295) then dec_str v ++ L "U"
  else
    L "0x" ++ pad0 hexWidth (hex_str true v) ++
    (if (0 <? hexWidth) && (v <=? 65535) then []
     else if (0 <? hexWidth) && (v <=? 4294967295) then L "U"
     else L "ULL").

(** genNumToString(std::intmax_t), util.cpp 374-390.  [-value] overflows for
    the smallest number. *)
Definition genNumToStringS (v : Z) : res str :=
  if (-2147483648 <=? v) && (v <=? 2147483647) then Ok (signed_dec v)
  else if 0 <? v then Ok (L "0x" ++ hex_str false v ++ L "LL")
  else m <- s64 (- v) ;; Ok (L "-0x" ++ hex_str false m ++ L "LL").

(** genNumToStringWithHexComment, util.cpp 392-418. *)
Definition genNumToStringWithHexComment (v : Z) : res str :=
  hex <- (if 0 <=? v then Ok (L "0x" ++ hex_str false v)
          else m <- s64 (- v) ;; Ok (L "-0x" ++ hex_str false m)) ;;
  if (-2147483648 <=? v) && (v <=? 2147483647) then
    d <- genNumToStringS v ;; Ok (d ++ L " /* " ++ hex ++ L " */")
  else if v <? 0 then Ok (hex ++ L "LL")
  else if to_u64 v <=? 4294967295 then
    Ok (genNumToStringU (to_u64 v) 0 ++ L " /* " ++ hex ++ L " */")
  else Ok (genNumToStringU (to_u64 v) 1).

(** genPathAddElem, util.cpp 437-446 (without WIN32). *)
Definition genPathAddElem (path elem : str) : str :=
  match rev path with
  | [] => elem
  | c :: _ => if ch_eqb c "/" then path ++ elem else path ++ "/"%char :: elem
  end.

(** genStrListToString, util.cpp 579-595: [join] after every element but the
    last, [last] after the last one. *)
Fixpoint genStrListToString (l : list str) (join last : str) : str :=
  match l with
  | [] => []
  | [e] => e ++ last
  | e :: l' => e ++ join ++ genStrListToString l' join last
  end.

(** genAddToStrList, util.cpp 597-611. *)
Definition genAddToStrList (v : str) (l : list str) : list str :=
  if mem_str v l then l else l ++ [v].

(** genDisplayName, util.cpp 714-726; genForceEmptyDisplayNameStr is "_". *)
Definition genDisplayName (displayName name : str) : str :=
  match displayName with
  | [] => name
  | _ => if str_eqb displayName (L "_") then [] else displayName
  end.

(** Number of characters of [s] up to and including the last newline:
    [lineStartPos] of genProcessTemplate, util.cpp 523-527. *)
Fixpoint line_start (s : str) : nat :=
  match s with
  | [] => O
  | c :: s' =>
      match line_start s' with
      | O => if ch_eqb c nl then 1%nat else O
      | S n => S (S n)
      end
  end.

(** find_first_not_of(" \t\r") == npos *)
Definition row_blank (s : str) : bool :=
  forallb (fun c => ch_eqb c " " || ch_eqb c (chr 9) || ch_eqb c (chr 13)) s.

(** The replacement map: key to text (std::map). *)
Definition replacements := list (str * str).
Fixpoint lookup (k : str) (r : replacements) : str :=
  match r with
  | [] => []
  | (k', v) :: r' => if str_eqb k k' then v else lookup k r'
  end.

(** The loop of genProcessTemplate, util.cpp 493-571.  [done] is the template
    in front of templPos, [rest] the template behind it.  The row removal
    copies [templPos, lineStartPos), undefined if that is not a range. *)
Fixpoint process_loop (n : nat) (repl : replacements) (done rest : str) : res str :=
  match n with
  | O => UB
  | S n' =>
      match rest with
      | [] => Ok []
      | _ =>
          match find_sub (L "#^#") rest with
          | None => Ok rest
          | Some (b, a) =>
              match find_sub (L "#$#") a with
              | None => Ok []
              | Some (key, after) =>
                  let value := lookup key repl in
                  let before := done ++ b in
                  let ls := line_start before in
                  let pre := skipn ls before in
                  let indent := length pre in
                  let hole := L "#^#" ++ key ++ L "#$#" in
                  let drop :=
                    if negb (is_nil value) then None
                    else if negb (row_blank pre) then None
                    else match split_at nl after with
                         | None => None
                         | Some (post, behind) => if row_blank post then Some (post, behind) else None
                         end in
                  match drop with
                  | Some (post, behind) =>
                      if (length done <=? ls)%nat then
                        out <- process_loop n' repl (before ++ hole ++ post ++ [nl]) behind ;;
                        Ok (skipn (length done) (firstn ls before) ++ out)
                      else UB
                  | None =>
                      text <- (if is_nil value then Ok []
                               else if (indent =? 0)%nat then Ok value
                               else genStrReplace value [nl] (nl :: repeat " "%char indent)) ;;
                      out <- process_loop n' repl (before ++ hole) after ;;
                      Ok (b ++ text ++ out)
                  end
              end
          end
      end
  end.

(** genCleanSpaces, util.cpp 63-95.  std::remove_if applies the predicate
    from left to right and reads only characters behind the current one,
    which it has not moved yet.  [verdict] is [Some removeChar] while
    idx < processedCount. *)
Definition is_sp_tab (c : ascii) : bool := ch_eqb c " " || ch_eqb c (chr 9).
Fixpoint clean_spaces (verdict : option bool) (s : str) : str :=
  match s with
  | [] => []
  | c :: s' =>
      let fresh :=
        if negb (ch_eqb c " ") then c :: clean_spaces None s'
        else if negb (existsb (ch_eqb nl) s') then c :: s'
        else
          let line_blank :=
            match drop_while is_sp_tab s' with [] => true | d :: _ => ch_eqb d nl end in
          if line_blank then clean_spaces (Some true) s'
          else c :: clean_spaces (Some false) s' in
      match verdict with
      | None => fresh
      | Some v =>
          if ch_eqb c nl then c :: clean_spaces None s'
          else if v then clean_spaces verdict s' else c :: clean_spaces verdict s'
      end
  end.

(** Number of newlines [s] starts with. *)
Fixpoint count_nl (s : str) : nat :=
  match s with
  | [] => O
  | c :: s' => if ch_eqb c nl then S (count_nl s') else O
  end.

(** genCleanExtraNewLines, util.cpp 97-118. *)
Fixpoint clean_newlines (s : str) : str :=
  match s with
  | [] => []
  | c :: s' =>
      if negb (ch_eqb c nl) then c :: clean_newlines s'
      else
        let k := count_nl s in
        if (length s <=? k)%nat then
          (if is_nil s' then c :: clean_newlines s' else clean_newlines s')
        else if (2 <? k)%nat then clean_newlines s' else c :: clean_newlines s'
  end.

(** genCleanNewLinesBeforeCloseBracket, util.cpp 120-178.  [skip] counts the
    characters still in front of processedCount. *)
Fixpoint clean_brackets (skip : nat) (s : str) : str :=
  match s with
  | [] => []
  | c :: s' =>
      match skip with
      | S k => c :: clean_brackets k s'
      | O =>
          if negb (ch_eqb c nl) then c :: clean_brackets O s'
          else
            let k := count_nl s in
            if (length s <=? k)%nat then c :: s'
            else if (k <=? 1)%nat then c :: clean_brackets O s'
            else
              let tail := skipn k s in
              let text := drop_while is_sp_tab tail in
              match text with
              | [] => c :: s'
              | d :: text' =>
                  let done := (k + (length tail - length text) - 1)%nat in
                  if negb (ch_eqb d "}") then c :: clean_brackets done s'
                  else match strip (L "} // namespace") text with
                       | Some (_ :: _) => c :: clean_brackets done s'
                       | _ => clean_brackets done s'
                       end
              end
      end
  end.

(** genDoTidyCode, util.cpp 180-185. *)
Definition genDoTidyCode (s : str) : str :=
  clean_brackets O (clean_newlines (clean_spaces None s)).

(** genProcessTemplate, util.cpp 493-577. *)
Definition genProcessTemplate (templ : str) (repl : replacements) (tidy : bool) : res str :=
  r <- process_loop (S (length templ)) repl [] templ ;;
  Ok (if tidy then genDoTidyCode r else r).

(** The last position [<= k] of a character satisfying [p] (find_last_of). *)
Fixpoint last_upto (p : ascii -> bool) (s : str) (k : nat) : option nat :=
  match s with
  | [] => None
  | c :: s' =>
      match (match k with O => None | S k' => last_upto p s' k' end) with
      | Some i => Some (S i)
      | None => if p c then Some O else None
      end
  end.
(** The first position [>= k] of a character satisfying [p] (find_first_of). *)
Fixpoint first_from (p : ascii -> bool) (s : str) (k : nat) : option nat :=
  match s with
  | [] => None
  | c :: s' =>
      match k with
      | O => if p c then Some O else option_map S (first_from p s' O)
      | S k' => option_map S (first_from p s' k')
      end
  end.

(** The loop of genStrMakeMultiline, util.cpp 622-685, on the text behind
    [pos].  find_last_of searches the whole text up to nextPos; results in
    front of [pos] are discarded by the code, so searching behind [pos] is the
    same. *)
Fixpoint multiline_loop (n : nat) (len : nat) (drop : bool) (s : str) : res str :=
  match n with
  | O => UB
  | S n' =>
      if (length s <=? len)%nat then Ok s
      else
        let insert (newPos : nat) :=
          r <- multiline_loop n' len drop (skipn (S newPos) s) ;;
          Ok (firstn newPos s ++ (if drop then [] else firstn 1 (skipn newPos s)) ++ [nl] ++ r) in
        match last_upto (ch_eqb nl) s len with
        | Some p => insert p
        | None =>
            let prePos := match last_upto is_sp_tab s len with Some p => p | None => O end in
            let postPos := match first_from is_sp_tab s (S len) with Some p => p | None => length s end in
            if (prePos =? 0)%nat && (length s <=? postPos)%nat then Ok s
            else if (prePos =? 0)%nat then insert postPos
            else if (length s <=? postPos)%nat then insert prePos
            else if (len - prePos <=? postPos - len)%nat then insert prePos
            else insert postPos
        end
  end.
(** genStrMakeMultiline, util.cpp 613-691. *)
Definition genStrMakeMultiline (s : str) (len : nat) (drop : bool) : res str :=
  if (length s <=? len)%nat then Ok s else multiline_loop (S (length s)) len drop s.
