(** Model of the definitions of the layers of a frame in the generated code: app/commsdsl2comms/src/CommsFrame.cpp,
    CommsLayer.cpp and the classes of the kinds of layers. *)
From Verif.Model Require Import Base Common Units Field FieldCommon Message Frame GenUtil GenComms.

(** What other code gives for a layer: the definitions of its fields ([gp_members], CommsLayer.cpp 370-403), the documentation
    ([gp_doc], 405-418), the type of its field ([gp_field], 298-333), the scope of the customisation options
    ([gp_opts], 335-345), the class of a custom layer or custom checksum ([gp_custom], genScopeForCustomLayer,
    genScopeForChecksum), the type of the escape field of a sync layer ([gp_esc]), the index of the field of the interface ([gp_idx])
    and whether the layer is after the payload ([gp_after], parseIsAfterPayload). *)
Record gparts := mkParts {
  gp_members : str; gp_doc : str; gp_field : str; gp_opts : str; gp_custom : str; gp_esc : str; gp_idx : Z; gp_after : bool }.

(** the comma in front of options, which every kind of layer adds in the same way *)
Definition with_comma (key opts : str) : list (str * str) := (key, opts) :: (if is_nil opts then [] else [(L "COMMA", L ",")]).
(** CommsPayloadLayer.cpp 58-62 *)
Definition payload_templ : str :=
  L "comms::frame::MsgDataLayer<" ++ [nl] ++
  L "    comms::option::def::FieldType<typename #^#CLASS_NAME#$##^#SUFFIX#$#::Field>" ++ [nl] ++
  L ">".
(** CommsIdLayer.cpp 61-68 *)
Definition id_templ : str :=
  L "comms::frame::MsgIdLayer<" ++ [nl] ++
  L "    #^#FIELD_TYPE#$#," ++ [nl] ++
  L "    TMessage," ++ [nl] ++
  L "    TAllMessages," ++ [nl] ++
  L "    #^#PREV_LAYER#$##^#COMMA#$#" ++ [nl] ++
  L "    #^#EXTRA_OPTS#$#" ++ [nl] ++
  L ">".
(** CommsSizeLayer.cpp 52-56 *)
Definition size_templ : str :=
  L "comms::frame::MsgSizeLayer<" ++ [nl] ++
  L "    #^#FIELD_TYPE#$#," ++ [nl] ++
  L "    #^#PREV_LAYER#$#" ++ [nl] ++
  L ">".
(** CommsValueLayer.cpp 60-66 *)
Definition value_templ : str :=
  L "comms::frame::TransportValueLayer<" ++ [nl] ++
  L "    #^#FIELD_TYPE#$#," ++ [nl] ++
  L "    #^#INTERFACE_FIELD_IDX#$#," ++ [nl] ++
  L "    #^#PREV_LAYER#$##^#COMMA#$#" ++ [nl] ++
  L "    #^#EXTRA_OPTS#$#" ++ [nl] ++
  L ">".
(** CommsChecksumLayer.cpp 91-97 *)
Definition checksum_templ : str :=
  L "comms::frame::Checksum#^#PREFIX_VAR#$#Layer<" ++ [nl] ++
  L "    #^#FIELD_TYPE#$#," ++ [nl] ++
  L "    #^#ALG#$#," ++ [nl] ++
  L "    #^#PREV_LAYER#$##^#COMMA#$#" ++ [nl] ++
  L "    #^#EXTRA_OPT#$#" ++ [nl] ++
  L ">".
(** CommsChecksumLayer.cpp 153-156 *)
Definition alg_templ : str :=
  L "#^#ALG#$#<" ++ [nl] ++
  L "    #^#FIELD#$#::ValueType" ++ [nl] ++
  L ">".
(** CommsSyncLayer.cpp 96-101 *)
Definition sync_templ : str :=
  L "comms::frame::Sync#^#TYPE#$#Layer<" ++ [nl] ++
  L "    #^#FIELD_TYPE#$#," ++ [nl] ++
  L "    #^#PREV_LAYER#$##^#COMMA#$#" ++ [nl] ++
  L "    #^#OPTS#$#" ++ [nl] ++
  L ">".
(** CommsCustomLayer.cpp 55-61 *)
Definition custom_templ : str :=
  L "#^#CUSTOM_LAYER_TYPE#$#<" ++ [nl] ++
  L "    #^#FIELD_TYPE#$#," ++ [nl] ++
  L "    #^#ID_TEMPLATE_PARAMS#$#" ++ [nl] ++
  L "    #^#PREV_LAYER#$##^#COMMA#$#" ++ [nl] ++
  L "    #^#EXTRA_OPT#$#" ++ [nl] ++
  L ">".
(** CommsChecksumLayer.cpp 120-168 commsDefAlgInternal *)
Definition checksum_class (a : checksum_alg) : str :=
  match a with
  | AlgCustom => [] | AlgSum => L "BasicSum" | AlgCcitt => L "Crc_CCITT" | Alg16 => L "Crc_16" | Alg32 => L "Crc_32" | AlgXor => L "BasicXor"
  end.
Definition checksum_algorithm (a : checksum_alg) (g : gparts) : res str :=
  if is_nil (checksum_class a) then Ok (gp_custom g)
  else
    let s := L "comms::frame::checksum::" ++ checksum_class a in
    match a with
    | AlgSum | AlgXor =>
        let field := if genStrStartsWith (gp_field g) (L "typename") then gp_field g else L "typename " ++ gp_field g in
        genProcessTemplate alg_templ [(L "ALG", s); (L "FIELD", field)] false
    | _ => Ok s
    end.
(** CommsSyncLayer.cpp 109-139 *)
Definition sync_options (seek vbr : bool) (g : gparts) : str :=
  genStrListToString ((if seek then [L "comms::option::def::FrameLayerSeekField<" ++ gp_esc g ++ L ">"] else []) ++
                      (if vbr then [L "comms::option::def::FrameLayerVerifyBeforeRead"] else [])) (L "," ++ [nl]) [].
(** CommsLayer.cpp 335-345 commsDefExtraOpts: id and custom layers are always customisable
    (CommsIdLayer.cpp 88-91, CommsCustomLayer.cpp 88-91) *)
Definition extra_opts (g : gparts) : str := L "typename TOpt::" ++ gp_opts g.
(** CommsCustomLayer.cpp 83-86, CommsIdLayer.cpp 83-86 commsDefHasInputMessagesImpl *)
Definition has_messages (l : layer) : bool :=
  match ly_spec l with SId => true | SCustom sem _ _ => layer_kind_eqb sem LId | _ => false end.
(** commsDefBaseTypeImpl of the kinds: CommsPayloadLayer.cpp 54-70, CommsIdLayer.cpp 59-81, CommsSizeLayer.cpp 49-64,
    CommsValueLayer.cpp 58-90, CommsChecksumLayer.cpp 89-118, 170-177, CommsSyncLayer.cpp 94-153, CommsCustomLayer.cpp 53-81 *)
Definition def_base (l : layer) (g : gparts) (prev : str) : res str :=
  match ly_spec l with
  | SPayload => genProcessTemplate payload_templ [(L "SUFFIX", L "Members"); (L "CLASS_NAME", genClassName (ly_name l))] false
  | SId => genProcessTemplate id_templ ([(L "PREV_LAYER", prev); (L "FIELD_TYPE", gp_field g)] ++ with_comma (L "EXTRA_OPTS") (extra_opts g)) false
  | SSize => genProcessTemplate size_templ [(L "FIELD_TYPE", gp_field g); (L "PREV_LAYER", prev)] false
  | SValue _ _ pseudo =>
      genProcessTemplate value_templ ([(L "FIELD_TYPE", gp_field g); (L "INTERFACE_FIELD_IDX", genNumToStringU (gp_idx g) 0); (L "PREV_LAYER", prev)] ++
        with_comma (L "EXTRA_OPTS") (if pseudo then L "comms::option::def::PseudoValue" else [])) false
  | SChecksum a _ _ until vbr =>
      alg <- checksum_algorithm a g ;;
      genProcessTemplate checksum_templ ([(L "FIELD_TYPE", gp_field g); (L "ALG", alg); (L "PREV_LAYER", prev)] ++
        with_comma (L "EXTRA_OPT") (if vbr then L "comms::option::def::FrameLayerVerifyBeforeRead" else []) ++
        (if is_nil until then [] else [(L "PREFIX_VAR", L "Prefix")])) false
  | SSync seek _ vbr _ =>
      genProcessTemplate sync_templ ([(L "FIELD_TYPE", gp_field g); (L "PREV_LAYER", prev); (L "TYPE", if gp_after g then L "Suffix" else L "Prefix")] ++
        with_comma (L "OPTS") (sync_options seek vbr g)) false
  | SCustom _ _ _ =>
      genProcessTemplate custom_templ ([(L "CUSTOM_LAYER_TYPE", gp_custom g); (L "FIELD_TYPE", gp_field g); (L "PREV_LAYER", prev)] ++
        with_comma (L "EXTRA_OPT") (extra_opts g) ++
        (if has_messages l then [(L "ID_TEMPLATE_PARAMS", L "TMessage," ++ [nl] ++ L "TAllMessages,")] else [])) false
  end.
(** CommsLayer.cpp 119-126 *)
Definition def_templ : str :=
  L "#^#MEMBERS#$#" ++ [nl] ++
  L "#^#DOC#$#" ++ [nl] ++
  L "#^#TEMPL_PARAMS#$#" ++ [nl] ++
  L "using #^#CLASS_NAME#$# =" ++ [nl] ++
  L "    #^#BASE#$#;" ++ [nl].
(** CommsLayer.cpp 117-151 commsDefType; [prev]: the previous layer, [has]: hasInputMessages (also returned) *)
Definition def_type (l : layer) (g : gparts) (prev : option layer) (has : bool) : res (str * bool) :=
  let name := match prev with Some p => genClassName (ly_name p) | None => [] end in
  let name := if has then name ++ L "<TMessage, TAllMessages>" else name in
  base <- def_base l g name ;;
  let has := has || has_messages l in
  t <- genProcessTemplate def_templ ([(L "MEMBERS", gp_members g); (L "DOC", gp_doc g); (L "CLASS_NAME", genClassName (ly_name l)); (L "BASE", base)] ++
         (if has then [(L "TEMPL_PARAMS", L "template <typename TMessage, typename TAllMessages>")] else [])) false ;;
  Ok (t, has).
(** CommsFrame.cpp 371-377: the loop *)
Fixpoint defs_loop (rl : list (layer * gparts)) (prev : option layer) (has : bool) : res (list str * option layer * bool) :=
  match rl with
  | [] => Ok ([], prev, has)
  | (l, g) :: rl' =>
      '(t, has) <- def_type l g prev has ;;
      '(ts, prev, has) <- defs_loop rl' (Some l) has ;;
      Ok (t :: ts, prev, has)
  end.
(** CommsFrame.cpp 379-382 *)
Definition stack_templ : str :=
  L "/// @brief Final framing layers stack definition." ++ [nl] ++
  L "#^#STACK_PARAMS#$#" ++ [nl] ++
  L "using Stack = #^#LAST_LAYER#$##^#LAST_LAYER_PARAMS#$#;" ++ [nl].
(** CommsFrame.cpp 366-401 commsDefLayersDefInternal; [ls]: m_commsLayers (undefined if empty: null pointer) *)
Definition layers_def (ls : list (layer * gparts)) : res str :=
  '(defs, prev, has) <- defs_loop (rev ls) None false ;;
  match prev with
  | None => UB
  | Some p =>
      s <- genProcessTemplate stack_templ ([(L "LAST_LAYER", genClassName (ly_name p))] ++
             (if has : bool then [(L "STACK_PARAMS", L "template<typename TMessage, typename TAllMessages>"); (L "LAST_LAYER_PARAMS", L "<TMessage, TAllMessages>")] else [])) false ;;
      Ok (genStrListToString (defs ++ [s]) [nl] [])
  end.
(** CommsFrame.cpp 42-60 commsHasIdLayerInternal *)
Definition has_id_layer (ls : list (layer * gparts)) : bool :=
  existsb (fun x => match ly_kind (fst x) with LId => true | LCustom => has_messages (fst x) | _ => false end) ls.
(** CommsFrame.cpp 403-413 commsDefFrameBaseInternal *)
Definition frame_base (name : str) (ls : list (layer * gparts)) : str :=
  genClassName name ++ L "Layers" ++ L "<TOpt>::" ++ (if has_id_layer ls then L "template Stack<TMessage, TAllMessages>" else L "Stack").
(** CommsFrame.cpp 455-466 commsDefAccessListInternal *)
Definition access_list (ls : list (layer * gparts)) : str :=
  genStrListToString (map (fun x => genAccessName (ly_name (fst x))) (rev ls)) (L "," ++ [nl]) [].
