(** C25, C26: layers of frames. *)
From Verif.Model Require Import Base Common Xml Units Field FieldCommon IntField EnumField SetField FloatField OptCond Composite Message Frame Protocol.
From Verif.Spec Require Import Texts IntSpec XmlSpec FieldSpec ProtocolSpec FrameSpec DslSpec Ex.
From Verif.Proofs Require Import BaseFacts CommonFacts ProtocolFacts RefFacts FrameFacts.
From Verif.Props Require Import ExProtocol.
Local Open Scope string_scope. Local Open Scope Z_scope. Local Open Scope list_scope.

(** ** C25 *)
Theorem C25_one_payload : forall me n f, frame_parse me n = Ok f -> exists p, payload_at f p /\ forall q, payload_at f q -> q = p.
Proof.
  intros me n f H. apply frame_parse_verified in H as V. destruct (fv_payload _ _ V) as [p P]. apply payload_idx in P. exists p. split; [exact P|].
  intros q Q. eapply payload_unique; eassumption.
Qed.
Print Assumptions C25_one_payload.
Theorem C25_one_id_and_size : forall me n f i j a b k, frame_parse me n = Ok f -> layer_at f i a -> layer_at f j b ->
  k = LId \/ k = LSize -> ly_kind a = k -> ly_kind b = k -> i = j.
Proof.
  intros me n f i j a b k H A B Hk Ka Kb. apply frame_parse_verified in H as V. pose proof (fv_layers _ _ V _ _ A) as X. unfold layer_verify in X.
  eapply single_layer_unique; [|exact A|exact B|exact Ka|exact Kb]. subst k. unfold ly_kind in *.
  destruct (ly_spec a); cbn in *; try (destruct Hk; discriminate); apply andb_true_iff in X; apply X.
Qed.
Print Assumptions C25_one_id_and_size.
Theorem C25_before_payload : forall me n f i p l, frame_parse me n = Ok f -> layer_at f i l -> payload_at f p ->
  In (ly_kind l) [LId; LSize; LValue] -> (i < p)%nat.
Proof.
  intros me n f i p l H A P K. apply frame_parse_verified in H as V. pose proof (fv_layers _ _ V _ _ A) as X. unfold layer_verify in X. unfold ly_kind in K.
  eapply before_payload_spec; [exact V|exact P|]. destruct (ly_spec l); cbn in K; try (exfalso; intuition discriminate); try (apply andb_true_iff in X; apply X); exact X.
Qed.
Print Assumptions C25_before_payload.
Theorem C25_checksum : forall me n f i l, frame_parse me n = Ok f -> layer_at f i l ->
  (forall a nm from until v, ly_spec l = SChecksum a nm from until v -> checksum_place f i from until) /\
  (forall from until, ly_spec l = SCustom LChecksum from until -> checksum_place f i from until).
Proof.
  intros me n f i l H A. apply frame_parse_verified in H as V. pose proof (fv_layers _ _ V _ _ A) as X. unfold layer_verify in X. split.
  - intros a nm from until v E. rewrite E in X. eapply checksum_verify_place. exact X.
  - intros from until E. rewrite E in X. cbn in X. eapply checksum_verify_place. exact X.
Qed.
Print Assumptions C25_checksum.
(** <sync> as a suffix (from DSL version 8 on) *)
Theorem C25_sync : forall me n f i p l seek esc vbr from, frame_parse me n = Ok f -> layer_at f i l -> payload_at f p ->
  ly_spec l = SSync seek esc vbr from -> available 8 (e_dsl (me_env me)) ->
  ((i < p)%nat -> from = []) /\ ((p < i)%nat -> seek = true -> from <> []) /\
  (from <> [] -> exists j, named_at f from j /\ (j <= p < i)%nat).
Proof.
  intros me n f i p l seek esc vbr from H A P E Av. apply frame_parse_verified in H as V. pose proof (fv_layers _ _ V _ _ A) as X. unfold layer_verify in X. rewrite E in X.
  unfold sync_verify in X. replace (sync_suffix_supported (me_env me)) with true in X by (unfold sync_suffix_supported, supports, available in *; lia). cbn [negb] in X.
  rewrite (payload_kind_idx _ _ _ V P) in X. assert (Ni : i <> p).
  { intros ->. destruct P as (l' & A' & K). unfold layer_at in A, A'. rewrite A in A'. injection A' as <-. unfold ly_kind in K. rewrite E in K. discriminate. }
  destruct (Nat.ltb p i) eqn:L.
  - apply Nat.ltb_lt in L. apply andb_true_iff in X as [X1 X2]. split; [lia|]. split.
    + intros _ -> ->. discriminate.
    + intros N. destruct from as [|c t]; [contradiction|]. cbn [is_nil orb] in X2. destruct (name_idx _ _) as [j|] eqn:J; [|discriminate]. apply andb_true_iff in X2 as [X2 _].
      exists j. split; [apply name_idx_named; exact J|]. apply Nat.leb_le in X2. lia.
  - apply Nat.ltb_ge in L. destruct from; [|discriminate]. split; [reflexivity|]. split; [lia|]. intros N. contradiction.
Qed.
Print Assumptions C25_sync.
(** suffix layers are properly nested: the later one starts not after the earlier one.
    Missing: <custom> checksum layers (refuted below) *)
Theorem C25_nested_partial : forall me n f p a b la lb fa fb ja jb, frame_parse me n = Ok f -> payload_at f p -> (p < a < b)%nat ->
  layer_at f a la -> layer_at f b lb -> suffix_from la fa -> suffix_from lb fb -> fa <> [] -> fb <> [] -> named_at f fa ja -> named_at f fb jb ->
  available 8 (e_dsl (me_env me)) \/ ly_kind lb = LChecksum -> (jb <= ja)%nat.
Proof.
  intros me n f p a b la lb fa fb ja jb H P R A B Sa Sb Na Nb Ja Jb D. apply frame_parse_verified in H as V. pose proof (fv_layers _ _ V _ _ B) as X. unfold layer_verify in X.
  assert (Fa : layer_from la = fa) by (destruct Sa as [(? & ? & ? & ? & E)|(? & ? & ? & E)]; unfold layer_from; rewrite E; reflexivity).
  assert (O : suffix_order (fr_layers f) p b jb = true).
  { apply name_idx_named in Jb. destruct Sb as [(? & ? & u & ? & E)|(s & ? & ? & E)]; rewrite E in X.
    - unfold checksum_verify in X. apply andb_true_iff in X as [X _]. apply andb_true_iff in X as [_ X]. destruct fb as [|c t]; [contradiction|]. cbn [is_nil orb] in X. rewrite Jb in X.
      apply andb_true_iff in X as [_ X]. cbn [negb orb] in X. rewrite (payload_kind_idx _ _ _ V P) in X. exact X.
    - destruct D as [D|D]; [|unfold ly_kind in D; rewrite E in D; discriminate]. unfold sync_verify in X.
      replace (sync_suffix_supported (me_env me)) with true in X by (unfold sync_suffix_supported, supports, available in *; lia). cbn [negb] in X.
      rewrite (payload_kind_idx _ _ _ V P) in X. replace (Nat.ltb p b) with true in X by (symmetry; apply Nat.ltb_lt; lia). apply andb_true_iff in X as [_ X].
      destruct fb as [|c t]; [contradiction|]. cbn [is_nil orb] in X. rewrite Jb in X. apply andb_true_iff in X as [_ X]. exact X. }
  eapply suffix_order_spec; [exact O|exact R|exact A|congruence|rewrite Fa; exact Ja].
Qed.
Print Assumptions C25_nested_partial.
(** the frames of an accepted protocol *)
Theorem C25_in_protocol : forall multi stod docs s sc path f, validate multi stod docs = Ok s -> In sc (pr_schemas s) -> frame_at sc path f ->
  exists me n, frame_parse me n = Ok f.
Proof.
  intros multi stod docs s sc path f H Hs (ns & N & F). apply validate_ok in H. unfold proto_ok in H. rewrite Forall_forall in H. apply H in Hs. clear H.
  assert (G : ns_ok ns).
  { clear F. revert Hs. induction N as [l k n I|l k n path m I N IH]; intros Hs; [eapply nss_each; eassumption|]. apply IH. apply subs_nss. eapply nss_each; eassumption. }
  inversion G as [? _ _ _ E _ _ _]; subst. apply by_name_In in F as [k F]. destruct E as [_ E]. destruct (E _ _ F) as (_ & _ & me & n & _ & P). eauto.
Qed.
Print Assumptions C25_in_protocol.

(** layers and what they stand for *)
Definition fld : node := el "field" [] [el "int" [("name", "f"); ("type", "uint8")] []].
Definition ly (kind name : string) (attrs : list (string * string)) : node := el kind (("name", name) :: attrs) (if String.eqb kind "payload" then [] else [fld]).
Arguments ly kind%string_scope name%string_scope attrs%string_scope.
Definition ex_frame (ls : list node) : res frame := frame_parse (menv_of (new_protocol false no_stod)) (el "frame" [("name", "F")] ls).
(** the layers that custom layers stand for are not counted: two id layers, the second after the payload, and checksums that overlap *)
Theorem C25_custom_refuted : exists me n f, frame_parse me n = Ok f /\
  map ly_spec (fr_layers f) = [SId; SPayload; SCustom LId [] []].
Proof.
  exists (menv_of (new_protocol false no_stod)), (el "frame" [("name", "F")] [ly "id" "a" []; ly "payload" "p" []; ly "custom" "c" [("semanticLayerType", "id")]]).
  eexists. split; vm_compute; reflexivity.
Qed.
Print Assumptions C25_custom_refuted.
Theorem C25_nested_refuted : exists me n f, frame_parse me n = Ok f /\ map ly_name (fr_layers f) = [T "a"; T "b"; T "p"; T "c"; T "d"] /\
  map ly_spec (fr_layers f) = [SId; SSize; SPayload; SChecksum AlgXor [] (T "a") [] false; SCustom LChecksum (T "b") []] /\
  frame_parse me (el "frame" [("name", "F")] [ly "id" "a" []; ly "size" "b" []; ly "payload" "p" []; ly "checksum" "c" [("alg", "xor"); ("from", "a")]; ly "checksum" "d" [("alg", "xor"); ("from", "b")]]) = Err.
Proof.
  exists (menv_of (new_protocol false no_stod)), (el "frame" [("name", "F")] [ly "id" "a" []; ly "size" "b" []; ly "payload" "p" []; ly "checksum" "c" [("alg", "xor"); ("from", "a")];
    ly "custom" "d" [("semanticLayerType", "checksum"); ("checksumFrom", "b")]]).
  eexists. split; [vm_compute; reflexivity|]. do 2 (split; [vm_compute; reflexivity|]). vm_compute. reflexivity.
Qed.
Print Assumptions C25_nested_refuted.
(** a frame with every kind of order the theorems speak about, and what is rejected *)
Example C25_ex : match ex_frame [ly "sync" "s" []; ly "size" "z" []; ly "id" "i" []; ly "payload" "p" []; ly "checksum" "c" [("alg", "crc-16"); ("from", "z")];
    ly "sync" "e" [("from", "s"); ("seekField", "true")]] with Ok f => map ly_kind (fr_layers f) | _ => [] end = [LSync; LSize; LId; LPayload; LChecksum; LSync].
Proof. vm_compute. reflexivity. Qed.
Example C25_ex_rejected : map (fun ls => is_Ok (ex_frame ls))
  [[ly "id" "a" []; ly "payload" "p" []]; [ly "id" "a" []]; [ly "payload" "p" []; ly "id" "a" []]; [ly "id" "a" []; ly "id" "b" []; ly "payload" "p" []];
   [ly "payload" "p" []; ly "payload" "q" []]; [ly "payload" "p" []; ly "checksum" "c" [("alg", "xor")]]; [ly "payload" "p" []; ly "checksum" "c" [("alg", "xor"); ("until", "p")]];
   [ly "payload" "p" []; ly "checksum" "c" [("alg", "xor"); ("from", "x")]]; [ly "sync" "s" [("from", "p"); ("seekField", "true")]; ly "payload" "p" []]]
  = [true; false; false; false; false; false; false; false; false].
Proof. vm_compute. reflexivity. Qed.

(** ** C26 *)
(** layers of the same name are reported to the user but accepted *)
Theorem C26_unique_refuted : ~ (forall me n f, frame_parse me n = Ok f -> NoDup (map ly_name (fr_layers f))).
Proof.
  intros H. assert (E : exists f, ex_frame [ly "id" "a" []; ly "size" "a" []; ly "payload" "p" []] = Ok f /\ map ly_name (fr_layers f) = [T "a"; T "a"; T "p"]) by (eexists; split; vm_compute; reflexivity).
  destruct E as (f & E & N). apply H in E. rewrite N in E. inversion E as [|? ? X _]. apply X. left. reflexivity.
Qed.
Print Assumptions C26_unique_refuted.
(** the names are valid identifiers *)
Theorem C26_names_valid_partial : forall me n f l, frame_parse me n = Ok f -> In l (fr_layers f) -> identifier (ly_name l).
Proof.
  intros me n f l H I. unfold frame_parse in H. do 6 (apply bind_Ok in H as (? & _ & H)). apply bind_Ok in H as (ls & M & H). do 2 (apply bind_Ok in H as (? & _ & H)). injection H as <-. cbn [fr_layers] in I.
  destruct (mapM_In _ _ _ _ M I) as (m & _ & P). unfold layer_parse in P. do 6 (apply bind_Ok in P as (? & _ & P)). apply bind_Ok in P as (u & G & P). apply guard_Ok in G.
  do 6 (apply bind_Ok in P as (? & _ & P)). injection P as <-. cbn [ly_name]. apply parseIsValidName_spec. exact G.
Qed.
Print Assumptions C26_names_valid_partial.
