(** Model of the order in which the generators stack the layers of a frame:
    lib/src/gen/GenFrame.cpp, GenLayer.cpp, GenChecksumLayer.cpp, GenSyncLayer.cpp, GenCustomLayer.cpp. *)
From Verif.Model Require Import Base Common Units Field FieldCommon Message Frame.

(** The vector of pointers to layers is a list of the numbers of the layers in the frame [ls].
    An iterator is a position.  erase and insert leave the other iterators pointing to the same positions:
    the vector is not reallocated because every insert follows an erase.  (Strictly the standard calls iterators behind the place
    of an erase invalid, also the one of the loop in GenFrame.cpp 168-179.) *)
Definition position (x : nat) (cur : list nat) : option nat := find_idx (Nat.eqb x) cur.
Definition erase (i : nat) (cur : list nat) : list nat := firstn i cur ++ skipn (S i) cur.
Definition insert (j x : nat) (cur : list nat) : list nat := firstn j cur ++ x :: skipn j cur.
Definition named (ls : list layer) (name : str) (x : nat) : bool :=
  match nth_error ls x with Some l => str_eqb (ly_name l) name | None => false end.
Definition is_payload (ls : list layer) (x : nat) : bool :=
  match nth_error ls x with Some l => layer_kind_eqb (ly_kind l) LPayload | None => false end.

(** The functions below return the vector and whether the order of layers has changed; [Err] when
    they set success to false: all the callers of getCommsOrderOfLayers then fail. *)
(** GenLayer.cpp 312-345 genForceCommsOrderImpl *)
Definition base_order (ls : list layer) (cur : list nat) (x : nat) : res (list nat * bool) :=
  match position x cur with
  | None => Err
  | Some i => match find_idx (is_payload ls) (skipn i cur) with Some _ => Ok (cur, false) | None => Err end
  end.
(** GenLayer.cpp 347-421 genAdjustSuffixLayersOrder.  The loop at 383 starts behind the payload; if this
    layer is declared before the payload it runs out of the vector. *)
Definition adjust_suffix (ls : list layer) (cur : list nat) (x : nat) : res (list nat * bool) :=
  match kind_idx ls LPayload, position x cur, find_idx (is_payload ls) cur with
  | Some pl, Some this, Some payload =>
      if Nat.leb x pl then UB
      else (fix go (others : list nat) : res (list nat * bool) :=
              match others with
              | [] => Ok (cur, false)
              | o :: others' =>
                  match position o cur with
                  | None => UB
                  | Some j => if Nat.ltb payload j then go others'
                              else if Nat.ltb j this then Ok (insert j x (erase this cur), true)
                              else go others'
                  end
              end) (seq (S pl) (x - S pl))
  | _, _, _ => UB
  end.
(** the end of GenChecksumLayer.cpp 108-119 and GenSyncLayer.cpp 183-194: [next] is the place before which this layer has to be *)
Definition suffix_layer (ls : list layer) (cur : list nat) (x : nat) (next : option nat) : res (list nat * bool) :=
  match position x cur, next with
  | Some i, Some j => adjust_suffix ls (if Nat.ltb j i then insert j x (erase i cur) else cur) x
  | _, _ => Err
  end.
(** GenChecksumLayer.cpp 52-78 and GenCustomLayer.cpp 65-91: with "until" *)
Definition until_order (ls : list layer) (cur : list nat) (x : nat) (until : str) : res (list nat * bool) :=
  match position x cur, find (named ls until) cur with
  | Some _, Some y => if is_payload ls y then Ok (cur, false) else Err
  | _, _ => Err
  end.
(** GenCustomLayer.cpp 93-130 *)
Definition custom_from (ls : list layer) (cur : list nat) (x : nat) (from : str) : res (list nat * bool) :=
  if is_nil from then Err
  else match position x cur, find_idx (named ls from) cur with
       | Some i, Some j => if Nat.eqb (S i) j then Ok (cur, false) else Ok (insert j x (erase i cur), true)
       | _, _ => Err
       end.
(** GenLayer.cpp 216-219, GenChecksumLayer.cpp 39-120, GenSyncLayer.cpp 130-195, GenCustomLayer.cpp 44-131.
    [sup]: suffix <sync> layers are supported (the dslVersion of the schema, ParseSyncLayerImpl.cpp 71-87 m_afterPayload) *)
Definition force_order (ls : list layer) (sup : bool) (cur : list nat) (x : nat) : res (list nat * bool) :=
  match nth_error ls x with
  | None => UB
  | Some l =>
      match ly_spec l with
      | SChecksum _ _ from until _ =>
          if negb (is_nil until) then until_order ls cur x until
          else if is_nil from then Err
          else suffix_layer ls cur x (find_idx (named ls from) cur)
      | SSync _ _ _ from =>
          if sup && match kind_idx ls LPayload with Some pl => Nat.ltb pl x | None => false end then
            suffix_layer ls cur x (find_idx (if is_nil from then is_payload ls else named ls from) cur)
          else base_order ls cur x
      | SCustom sem from until =>
          if negb (layer_kind_eqb sem LChecksum) then base_order ls cur x
          else if negb (is_nil until) then until_order ls cur x until
          else custom_from ls cur x from
      | _ => base_order ls cur x
      end
  end.
(** GenFrame.cpp 168-179: once over the vector from the position [idx] on, until a layer changes the order.  [fuel]: the vector keeps its size *)
Fixpoint order_pass (fuel : nat) (ls : list layer) (sup : bool) (cur : list nat) (idx : nat) : res (list nat * bool) :=
  match fuel with
  | O => Ok (cur, false)
  | S fuel' =>
      match nth_error cur idx with
      | None => Ok (cur, false)
      | Some x => '(cur', changed) <- force_order ls sup cur x ;;
                  if changed : bool then Ok (cur', true) else order_pass fuel' ls sup cur' (S idx)
      end
  end.
(** GenFrame.cpp 158-188 getCommsOrderOfLayers.  [passes] bounds the number of turns of the outer loop, which the code
    does not bound: [None] if it has not ended by then. *)
Fixpoint order_loop (passes : nat) (ls : list layer) (sup : bool) (cur : list nat) : option (res (list nat)) :=
  match passes with
  | O => None
  | S passes' =>
      match order_pass (length cur) ls sup cur 0 with
      | Ok (cur', true) => order_loop passes' ls sup cur'
      | Ok (cur', false) => Some (Ok cur')
      | Err => Some Err
      | UB => Some UB
      end
  end.
Definition getCommsOrderOfLayers (passes : nat) (ls : list layer) (sup : bool) : option (res (list nat)) :=
  order_loop passes ls sup (seq 0 (length ls)).
