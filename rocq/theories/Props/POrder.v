(** C67: the order in which the layers of a frame are nested. *)
From Verif.Model Require Import Base Common Xml Units Field FieldCommon Composite Message Frame Protocol GenOrder.
From Verif.Spec Require Import Texts XmlSpec FrameSpec DslSpec Ex OrderSpec.
From Verif.Proofs Require Import BaseFacts FrameFacts OrderFacts OrderFrame.
From Verif.Props Require Import ExProtocol PFrame.
Local Open Scope string_scope. Local Open Scope nat_scope. Local Open Scope list_scope.

Definition arranges (me : menv) (f : frame) (r : res (list nat)) : Prop := finishes f (sync_suffix_supported (me_env me)) r.

(** Missing: checksums in front of the payload which only say "from" and <custom> checksum layers which only say "from"
    (refuted below), layers of equal names *)
Theorem C67_order_partial : forall me n f p, frame_parse me n = Ok f -> payload_at f p -> NoDup (map ly_name (fr_layers f)) ->
  (forall i l from, layer_at f i l -> ly_spec l <> SCustom LChecksum from []) ->
  (forall i l a nm from v, layer_at f i l -> ly_spec l = SChecksum a nm from [] v -> p < i) ->
  exists r, arranges me f r /\ r <> UB /\
    (r = Err <-> no_place f p (available 8 (e_dsl (me_env me)))) /\
    forall o, r = Ok o -> wire (fun i => p < i) o (seq 0 (length (fr_layers f))) /\ encloses f p o.
Proof.
  intros me n f p H P Nd Nc Np. apply frame_parse_verified in H as V. destruct (order_frame (me_env me) f p V P Nd Nc Np) as (r & Fi & E & Nu & O).
  exists r. split; [exact Fi|]. split; [exact Nu|]. split; [|exact O]. rewrite E.
  assert (Q : available 8 (e_dsl (me_env me)) <-> sync_suffix_supported (me_env me) = true) by (unfold sync_suffix_supported, supports, available; lia).
  split; intros [i l until A C U D|i l sem from until A L S D|i l seek esc vbr from A L S D];
    [eapply Until|eapply CustomSuffix|eapply SyncSuffix|eapply Until|eapply CustomSuffix|eapply SyncSuffix]; try eassumption; tauto.
Qed.
Print Assumptions C67_order_partial.
(** the order is unique: the loop cannot end in two ways *)
Theorem C67_unique : forall me f r r', arranges me f r -> arranges me f r' -> r = r'.
Proof.
  intros me f r r' (t & H) (t' & H'). specialize (H t'). specialize (H' t). rewrite Nat.add_comm in H'. rewrite H in H'. injection H' as ->. reflexivity.
Qed.
Print Assumptions C67_unique.
(** the stack determines what is on the wire *)
Theorem C67_wire_unique : forall suffix o w w', wire suffix o w -> wire suffix o w' -> w = w'.
Proof.
  induction o as [|x o IH]; cbn; intros w w' H H'; [congruence|]. destruct H as (a & A & [[S ->]|[S ->]]), H' as (b & B & [[S' ->]|[S' ->]]); try contradiction; now rewrite (IH _ _ A B).
Qed.
Print Assumptions C67_wire_unique.

Definition ex_me : menv := menv_of (new_protocol false no_stod).
Definition of_layers (ls : list node) : node := el "frame" [("name", "F")] ls.
Definition frame_of (ls : list node) : frame := match ex_frame ls with Ok f => f | _ => mkFrame [] [] [] [] end.
(** an id, a size, the payload, two checksums from the size and one from the id *)
Definition ex_layers : list node := [ly "id" "a" []; ly "size" "b" []; ly "payload" "p" [];
  ly "checksum" "c" [("alg", "sum"); ("from", "b")]; ly "checksum" "d" [("alg", "sum"); ("from", "b")]; ly "checksum" "e" [("alg", "sum"); ("from", "a")]].
Definition ex_order : frame := Eval vm_compute in frame_of ex_layers.
Definition plain (f : frame) (p : nat) : bool :=
  forallb (fun i => match nth_error (fr_layers f) i with
                    | Some l => match ly_spec l with SCustom LChecksum _ [] => false | SChecksum _ _ _ [] _ => p <? i | _ => true end
                    | None => true
                    end) (seq 0 (length (fr_layers f))).
Lemma plain_spec f p : plain f p = true ->
  (forall i l from, layer_at f i l -> ly_spec l <> SCustom LChecksum from []) /\ (forall i l a nm from v, layer_at f i l -> ly_spec l = SChecksum a nm from [] v -> p < i).
Proof.
  intro H. unfold plain in H. rewrite forallb_forall in H.
  assert (K : forall i l, layer_at f i l -> In i (seq 0 (length (fr_layers f)))) by (intros i l A; apply in_seq; split; [lia|]; cbn; apply nth_error_Some; unfold layer_at in A; congruence).
  split.
  - intros i l from A S. specialize (H i (K _ _ A)). unfold layer_at in A. cbn beta in H. rewrite A, S in H. discriminate.
  - intros i l a nm from v A S. specialize (H i (K _ _ A)). unfold layer_at in A. cbn beta in H. rewrite A, S in H. now apply Nat.ltb_lt.
Qed.
Example C67_ex : ex_frame ex_layers = Ok ex_order /\ payload_at ex_order 2 /\ NoDup (map ly_name (fr_layers ex_order)) /\ plain ex_order 2 = true /\
  arranges ex_me ex_order (Ok [5; 0; 4; 3; 1; 2]).
Proof.
  split; [vm_compute; reflexivity|]. split; [eexists; split; vm_compute; reflexivity|]. split.
  - apply NoDup_nth_error. assert (Q : forallb (fun i => forallb (fun j => Nat.eqb i j || negb match nth_error (map ly_name (fr_layers ex_order)) i, nth_error (map ly_name (fr_layers ex_order)) j with Some a, Some b => str_eqb a b | _, _ => false end) (seq 0 6)) (seq 0 6) = true) by (vm_compute; reflexivity).
    intros i j L E. assert (Lj : j < 6) by (change 6 with (length (map ly_name (fr_layers ex_order))); apply nth_error_Some; rewrite <- E; now apply nth_error_Some). change (i < 6) in L.
    assert (Ii : In i (seq 0 6)) by (apply in_seq; lia). assert (Ij : In j (seq 0 6)) by (apply in_seq; lia).
    rewrite forallb_forall in Q. specialize (Q i Ii). rewrite forallb_forall in Q. specialize (Q j Ij).
    rewrite <- E in Q. destruct (nth_error (map ly_name (fr_layers ex_order)) i) as [a|] eqn:A; [|apply nth_error_None in A; change (6 <= i) in A; lia].
    rewrite str_eqb_refl in Q. cbn [negb] in Q. rewrite orb_false_r in Q. now apply Nat.eqb_eq.
  - split; [vm_compute; reflexivity|]. exists 4. intro more. vm_compute. reflexivity.
Qed.

(** Of a <custom> checksum layer with only "checksumFrom" the generator has no idea of the layers around it.  Two of them from one layer take turns in
    front of it forever *)
Definition ex_endless : frame := Eval vm_compute in frame_of [ly "id" "a" []; ly "payload" "p" [];
  ly "custom" "c" [("semanticLayerType", "checksum"); ("checksumFrom", "a")]; ly "custom" "d" [("semanticLayerType", "checksum"); ("checksumFrom", "a")]].
Theorem C67_ends_refuted : exists n f, frame_parse ex_me n = Ok f /\ payload_at f 1 /\ never_finishes f (sync_suffix_supported (me_env ex_me)).
Proof.
  exists (of_layers [ly "id" "a" []; ly "payload" "p" []; ly "custom" "c" [("semanticLayerType", "checksum"); ("checksumFrom", "a")];
    ly "custom" "d" [("semanticLayerType", "checksum"); ("checksumFrom", "a")]]), ex_endless.
  split; [vm_compute; reflexivity|]. split; [eexists; split; vm_compute; reflexivity|].
  assert (St : forall cur cur', order_pass (length cur) (fr_layers ex_endless) true cur 0 = Ok (cur', true) ->
    forall n, order_loop (S n) (fr_layers ex_endless) true cur = order_loop n (fr_layers ex_endless) true cur') by (intros cur cur' E n; cbn [order_loop]; rewrite E; reflexivity).
  assert (Cy : forall n, let stuck l := order_loop n (fr_layers ex_endless) true l = None in
    stuck [2; 3; 0; 1] /\ stuck [3; 0; 2; 1] /\ stuck [3; 2; 0; 1] /\ stuck [2; 0; 3; 1]).
  { induction n as [|n (I1 & I2 & I3 & I4)]; [repeat split|]. cbn zeta. split; [|split; [|split]].
    - rewrite (St _ [3; 0; 2; 1]); [exact I2|vm_compute; reflexivity].
    - rewrite (St _ [3; 2; 0; 1]); [exact I3|vm_compute; reflexivity].
    - rewrite (St _ [2; 0; 3; 1]); [exact I4|vm_compute; reflexivity].
    - rewrite (St _ [2; 3; 0; 1]); [exact I1|vm_compute; reflexivity]. }
  intros turns. change (sync_suffix_supported (me_env ex_me)) with true. unfold getCommsOrderOfLayers. change (seq 0 (length (fr_layers ex_endless))) with [0; 1; 2; 3].
  destruct turns as [|n]; [reflexivity|]. rewrite (St _ [2; 0; 1; 3]); [|vm_compute; reflexivity]. destruct n as [|n]; [reflexivity|].
  rewrite (St _ [2; 3; 0; 1]); [|vm_compute; reflexivity]. apply Cy.
Qed.
Print Assumptions C67_ends_refuted.
(** behind a <checksum> it ends up inside that checksum: the generated code writes them in an order other than the declared one *)
Theorem C67_wire_refuted : exists n f o, frame_parse ex_me n = Ok f /\ payload_at f 1 /\ length (fr_layers f) = 4 /\ arranges ex_me f (Ok o) /\
  wire (fun i => 1 < i) o [0; 1; 3; 2] /\ ~ wire (fun i => 1 < i) o (seq 0 4).
Proof.
  exists (of_layers [ly "id" "a" []; ly "payload" "p" []; ly "checksum" "d" [("alg", "sum"); ("from", "a")];
    ly "custom" "c" [("semanticLayerType", "checksum"); ("checksumFrom", "a")]]). eexists. exists [2; 3; 0; 1].
  split; [vm_compute; reflexivity|]. split; [eexists; split; vm_compute; reflexivity|]. split; [reflexivity|]. split; [exists 4; intro more; vm_compute; reflexivity|].
  assert (W : wire (fun i => 1 < i) [2; 3; 0; 1] [0; 1; 3; 2]) by exact (wire_filter 1 [2; 3; 0; 1]).
  split; [exact W|]. intro H. pose proof (C67_wire_unique _ _ _ _ H W) as E. discriminate E.
Qed.
Print Assumptions C67_wire_refuted.
(** a checksum in front of the payload which says "from" (and not "until"): the generator runs out of the vector of the layers *)
Theorem C67_defined_refuted : exists n f, frame_parse ex_me n = Ok f /\ payload_at f 2 /\ arranges ex_me f UB.
Proof.
  exists (of_layers [ly "id" "a" []; ly "checksum" "c" [("alg", "sum"); ("from", "a")]; ly "payload" "p" []]). eexists.
  split; [vm_compute; reflexivity|]. split; [eexists; split; vm_compute; reflexivity|]. exists 4. intro more. vm_compute. reflexivity.
Qed.
Print Assumptions C67_defined_refuted.
(** and a <custom> one is written in front of the layer it starts from, before all of the data it covers *)
Theorem C67_custom_prefix_refuted : exists n f, frame_parse ex_me n = Ok f /\ payload_at f 2 /\ map ly_name (fr_layers f) = [T "a"; T "c"; T "p"] /\ arranges ex_me f (Ok [1; 0; 2]).
Proof.
  exists (of_layers [ly "id" "a" []; ly "custom" "c" [("semanticLayerType", "checksum"); ("checksumFrom", "a")]; ly "payload" "p" []]). eexists.
  split; [vm_compute; reflexivity|]. split; [eexists; split; vm_compute; reflexivity|]. split; [vm_compute; reflexivity|]. exists 4. intro more. vm_compute. reflexivity.
Qed.
Print Assumptions C67_custom_prefix_refuted.
(** a frame whose checksum does not extend to the payload is accepted by the parser and rejected by the generator *)
Theorem C67_rejected : exists n f, frame_parse ex_me n = Ok f /\ payload_at f 2 /\ no_place f 2 True /\ arranges ex_me f Err.
Proof.
  exists (of_layers [ly "checksum" "c" [("alg", "sum"); ("until", "a")]; ly "id" "a" []; ly "payload" "p" []]). eexists.
  split; [vm_compute; reflexivity|]. split; [eexists; split; vm_compute; reflexivity|]. split; [|exists 4; intro more; vm_compute; reflexivity].
  eapply (Until _ _ _ 0); [reflexivity|left; do 4 eexists; reflexivity|discriminate|]. intros [(l & A & N) _]. vm_compute in A. injection A as <-. discriminate N.
Qed.
Print Assumptions C67_rejected.
