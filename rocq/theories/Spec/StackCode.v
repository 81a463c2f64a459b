(** The definitions of the layers of a frame in the generated code, and the stack of layers they stand for. *)
From Coq Require Import Ascii String ZArith List Bool.
Import ListNotations.
From Verif.Model Require Import Base Message Frame CommsStack GenComms.
From Verif.Spec Require Import Texts GenSpec.
Open Scope Z_scope.

(** ** Definitions *)
(** a class of the library with its arguments: those in front of the wrapped layer, the wrapped layer (its name and whether it
    is given the types of messages), those after it *)
Record ltype := mkLType { lt_class : txt; lt_before : list txt; lt_prev : option (txt * bool); lt_after : list txt }.
(** "using name = type" (with the definitions of the fields in front of it), a template or not *)
Record lalias := mkAlias { la_members : txt; la_doc : txt; la_templ : bool; la_name : txt; la_type : ltype }.
Definition print_use (p : txt * bool) : txt := if snd p then fst p ++ T "<TMessage, TAllMessages>" else fst p.
Definition print_ltype (t : ltype) : txt :=
  lt_class t ++ T "<" ++ join (T ", ") (lt_before t ++ match lt_prev t with Some p => [print_use p] | None => [] end ++ lt_after t) ++ T ">".
Definition print_params (b : bool) : txt := if b then T "template <typename TMessage, typename TAllMessages>" else [].
Definition print_alias (a : lalias) : txt :=
  la_members a ++ [newline] ++ la_doc a ++ [newline] ++ print_params (la_templ a) ++ [newline] ++ T "using " ++ la_name a ++ T " = " ++ print_ltype (la_type a) ++ T ";".
(** the last definition is that of the stack *)
Definition print_stack (defs : list lalias) (top : txt * bool) : txt :=
  join [newline] (map print_alias defs) ++ [newline] ++ T "/// @brief Final framing layers stack definition." ++ [newline] ++
  print_params (snd top) ++ [newline] ++ T "using Stack = " ++ print_use top ++ T ";".
(** Following the names: what the name [fst use] stands for after the definitions [defs] (a definition can use those before it only, a template
    must get the types of messages and no other definition may), from the outermost layer to the innermost one. *)
Inductive unfolds : list lalias -> txt * bool -> list ltype -> Prop :=
| unfold_innermost before d after : lt_prev (la_type d) = None -> unfolds (before ++ d :: after) (la_name d, la_templ d) [la_type d]
| unfold_wraps before d after use ts : lt_prev (la_type d) = Some use -> unfolds before use ts ->
    unfolds (before ++ d :: after) (la_name d, la_templ d) (la_type d :: ts).

(** ** Layers *)
(** layers which deal with numbers of messages *)
Definition deals_with_messages (l : layer) : Prop := ly_spec l = SId \/ exists from until, ly_spec l = SCustom LId from until.
(** the type of a field named in an argument: "typename" in front of it, once *)
Definition named_type (field t : txt) : Prop :=
  ((exists r, field = T "typename" ++ r) -> t = field) /\ (~ (exists r, field = T "typename" ++ r) -> t = T "typename " ++ field).
(** the algorithm of a checksum *)
Definition algorithm (a : checksum_alg) (g : gparts) (t : txt) : Prop :=
  match a with
  | AlgCustom => t = gp_custom g
  | AlgCcitt => t = T "comms::frame::checksum::Crc_CCITT"
  | Alg16 => t = T "comms::frame::checksum::Crc_16"
  | Alg32 => t = T "comms::frame::checksum::Crc_32"
  | AlgSum => exists f, named_type (gp_field g) f /\ t = T "comms::frame::checksum::BasicSum<" ++ f ++ T "::ValueType>"
  | AlgXor => exists f, named_type (gp_field g) f /\ t = T "comms::frame::checksum::BasicXor<" ++ f ++ T "::ValueType>"
  end.
Definition number_text (n : Z) : txt := GenUtil.genNumToStringU n 0.
(** the class of a layer and its arguments in front of and after the wrapped layer *)
Definition layer_class (l : layer) (g : gparts) (c : txt) (before after : list txt) : Prop :=
  match ly_spec l with
  | SPayload => c = T "comms::frame::MsgDataLayer" /\ before = [T "comms::option::def::FieldType<typename " ++ genClassName (ly_name l) ++ T "Members::Field>"] /\ after = []
  | SId => c = T "comms::frame::MsgIdLayer" /\ before = [gp_field g; T "TMessage"; T "TAllMessages"] /\ after = [T "typename TOpt::" ++ gp_opts g]
  | SSize => c = T "comms::frame::MsgSizeLayer" /\ before = [gp_field g] /\ after = []
  | SValue _ _ pseudo => c = T "comms::frame::TransportValueLayer" /\ before = [gp_field g; number_text (gp_idx g)] /\
      after = (if pseudo then [T "comms::option::def::PseudoValue"] else [])
  | SChecksum a _ _ until vbr =>
      c = (match until with [] => T "comms::frame::ChecksumLayer" | _ => T "comms::frame::ChecksumPrefixLayer" end) /\
      (exists alg, algorithm a g alg /\ before = [gp_field g; alg]) /\ after = (if vbr then [T "comms::option::def::FrameLayerVerifyBeforeRead"] else [])
  | SSync seek _ vbr _ =>
      c = (if gp_after g then T "comms::frame::SyncSuffixLayer" else T "comms::frame::SyncPrefixLayer") /\ before = [gp_field g] /\
      after = (if seek then [T "comms::option::def::FrameLayerSeekField<" ++ gp_esc g ++ T ">"] else []) ++ (if vbr then [T "comms::option::def::FrameLayerVerifyBeforeRead"] else [])
  | SCustom sem _ _ => c = gp_custom g /\ before = gp_field g :: (match sem with LId => [T "TMessage"; T "TAllMessages"] | _ => [] end) /\ after = [T "typename TOpt::" ++ gp_opts g]
  end.
Definition is_class_of (x : layer * gparts) (t : ltype) : Prop := layer_class (fst x) (snd x) (lt_class t) (lt_before t) (lt_after t).
