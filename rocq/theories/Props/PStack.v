(** C75: the generated definitions of the layers of a frame stand for the stack of its layers. *)
From Coq Require Import Lia Permutation.
From Verif.Model Require Import Base Common Xml Units Field FieldCommon Composite Message Frame Protocol GenOrder GenUtil GenComms CommsStack.
From Verif.Spec Require Import Texts GenSpec TokenSpec XmlSpec FrameSpec DslSpec Ex OrderSpec StackCode.
From Verif.Proofs Require Import BaseFacts FrameFacts OrderFacts OrderFrame StackFacts.
From Verif.Props Require Import ExProtocol PFrame POrder.
Local Open Scope string_scope. Local Open Scope nat_scope. Local Open Scope list_scope.

(** [ls]: the layers, from the outermost one to the payload.  There is one definition per layer, from the payload to the outermost layer; the name
    given to the stack stands for the classes of the layers in their order; a definition is a template if and only if
    a layer at this place or further inside deals with messages *)
Theorem C75_stack : forall outer pl gpl, ly_spec pl = SPayload -> Forall (fun x => ly_spec (fst x) <> SPayload) outer ->
  let ls := outer ++ [(pl, gpl)] in
  exists out defs top ts, layers_def ls = Ok out /\ tokens out = tokens (print_stack defs top) /\
    map la_name defs = map (fun x => genClassName (ly_name (fst x))) (rev ls) /\
    unfolds defs top ts /\ Forall2 is_class_of ls ts /\
    fst top = genClassName (ly_name (fst (hd (pl, gpl) ls))) /\ (snd top = true <-> List.Exists deals_with_messages (map fst ls)) /\
    forall i d, nth_error defs i = Some d -> exists x, nth_error (rev ls) i = Some x /\ la_members d = gp_members (snd x) /\ la_doc d = gp_doc (snd x) /\
      (la_templ d = true <-> List.Exists deals_with_messages (map fst (firstn (S i) (rev ls)))).
Proof.
  intros outer pl gpl Sp F ls. destruct (stack_tokens outer pl gpl Sp F) as (out & E & Tt). destruct (unfolds_stack outer pl gpl Sp F) as (ts & U & C).
  exists out. eexists. eexists. exists ts. split; [exact E|]. split; [exact Tt|]. split; [apply alias_names|]. split; [exact U|]. split; [exact C|].
  split; [|split; [apply with_iff|]].
  - cbn [fst]. unfold cls, ls. destruct outer as [|[l g] outer]; reflexivity.
  - intros i d H. apply alias_at in H as (x & H & M & D & _ & Tm). exists x. split; [exact H|]. split; [exact M|]. split; [exact D|].
    rewrite Tm. cbn [orb]. apply with_iff.
Qed.
Print Assumptions C75_stack.
(** if no name is defined twice, it is the only stack the definitions stand for *)
Theorem C75_unique : forall defs use ts ts', NoDup (map la_name defs) -> unfolds defs use ts -> unfolds defs use ts' -> ts = ts'.
Proof. apply unfolds_det. Qed.
Print Assumptions C75_unique.
(** the base class of the frame gives the types of messages to the stack if and only if it is a template *)
Theorem C75_base : forall name ls b, (b = true <-> List.Exists deals_with_messages (map fst ls)) ->
  frame_base name ls = genClassName name ++ T "Layers<TOpt>::" ++ (if b then T "template " else []) ++ print_use (T "Stack", b).
Proof.
  intros name ls b H. assert (has_id_layer ls = b) as E.
  { rewrite <- with_iff in H. assert (has_id_layer ls = with_messages ls) as ->.
    { clear. unfold has_id_layer, with_messages. induction ls as [|x ls IH]; [reflexivity|]. cbn [existsb]. rewrite IH. apply (f_equal (fun z => z || _)%bool).
      unfold ly_kind, has_messages. destruct (ly_spec (fst x)); reflexivity. }
    destruct b, (with_messages ls); intuition congruence. }
  unfold frame_base. rewrite E. apply (f_equal (fun z => _ ++ z)). destruct b; reflexivity.
Qed.
Print Assumptions C75_base.
(** the access functions are declared from the payload to the outermost layer *)
Theorem C75_access : forall ls, access_list ls = join (T "," ++ [newline]) (map (fun x => genAccessName (ly_name (fst x))) (rev ls)).
Proof.
  intro ls. unfold access_list. change nl with newline. generalize (map (fun x : layer * gparts => genAccessName (ly_name (fst x))) (rev ls)). intro m.
  induction m as [|a m IH]; [reflexivity|]. destruct m as [|b m]; [cbn [genStrListToString join]; now rewrite ?app_nil_r|].
  cbn [genStrListToString join] in *. rewrite IH. rewrite <- ?app_assoc. reflexivity.
Qed.
Print Assumptions C75_access.

(** ** Frames of a schema *)
(** the layers of [f] in the order [o], each with what other code gives for it *)
Definition stacked (f : frame) (g : nat -> gparts) (o : list nat) (ls : list (layer * gparts)) : Prop :=
  Forall2 (fun i x => layer_at f i (fst x) /\ snd x = g i) o ls.
Lemma wire_perm suffix o : forall w, wire suffix o w -> Permutation o w.
Proof.
  induction o as [|x o IH]; cbn; intros w H; [subst; constructor|]. destruct H as (a & A & [[_ ->]|[_ ->]]); apply IH in A.
  - rewrite <- Permutation_cons_append. now constructor.
  - now constructor.
Qed.
Lemma wire_inner suffix a : forall b w, wire suffix (a ++ b) w -> exists u v z, w = u ++ z ++ v /\ wire suffix b z.
Proof.
  induction a as [|x a IH]; cbn; intros b w H; [exists [], [], w; now rewrite app_nil_r|]. destruct H as (y & A & H). apply IH in A as (u & v & z & -> & B).
  destruct H as [[_ ->]|[_ ->]]; [exists u, (v ++ [x]), z; now rewrite <- !app_assoc|exists (x :: u), v, z; auto].
Qed.
Lemma seq_split n u x w : seq 0 n = u ++ x :: w -> x = length u /\ forall y, In y w -> x < y.
Proof.
  intro E. assert (H : forall i y, nth_error (u ++ x :: w) i = Some y -> y = i).
  { intros i y. rewrite <- E. intro H. assert (i < n) as L by (rewrite <- (seq_length n 0); apply nth_error_Some; congruence).
    rewrite (nth_error_nth' _ 0) in H by (now rewrite seq_length). rewrite seq_nth in H by exact L. injection H as <-. reflexivity. }
  assert (x = length u) as Ex by (apply H; rewrite nth_error_app2 by lia; now rewrite Nat.sub_diag). split; [exact Ex|].
  intros y I. apply In_nth_error in I as (k & Hk). specialize (H (length u + S k) y).
  rewrite nth_error_app2 in H by lia. replace (length u + S k - length u) with (S k) in H by lia. specialize (H Hk). lia.
Qed.
Lemma payload_last f p o : payload_at f p -> wire (fun i => p < i) o (seq 0 (length (fr_layers f))) -> encloses f p o -> exists a, o = a ++ [p] /\ ~ In p a.
Proof.
  intros P W En. pose proof (wire_perm _ _ _ W) as Pm. assert (NoDup o) as Nd by (apply (Permutation_NoDup (Permutation_sym Pm)), seq_NoDup).
  assert (p < length (fr_layers f)) as Lp.
  { destruct P as (l & P & _). unfold layer_at in P. apply nth_error_Some. congruence. }
  assert (In p o) as I by (apply (Permutation_in _ (Permutation_sym Pm)), in_seq; lia).
  apply in_split in I as (a & b & ->). assert (~ In p a /\ ~ In p b) as [Na Nb] by (apply NoDup_remove_2 in Nd; rewrite in_app_iff in Nd; tauto).
  destruct b as [|k b]; [exists a; auto|]. exfalso.
  destruct (wire_inner _ _ _ _ W) as (u & v & z & Es & Wz). destruct Wz as (y & Wy & [[Hp _]|[_ ->]]); [lia|].
  pose proof (wire_perm _ _ _ Wy) as Py. assert (In k y) as Ik by (apply (Permutation_in _ Py); left; reflexivity).
  cbn [app] in Es. destruct (seq_split _ _ _ _ Es) as [_ Hs]. assert (p < k) as Hk by (apply Hs; apply in_or_app; auto).
  assert (In k (seq 0 (length (fr_layers f)))) as Hl. { rewrite Es. apply in_or_app. right. right. apply in_or_app. auto. }
  apply in_seq in Hl. destruct (En k ltac:(lia)) as [H1 H2].
  assert (inside_of (a ++ p :: k :: b) k p -> False) as Out.
  2: { assert (~ (exists j, starts_at f k j /\ j <= p)) as N by (intros (j & S & Hj); apply Out, (H1 j S Hj); lia).
       apply Out, (H2 N). split; [exact Hk|left; lia]. }
  intros (o1 & i1 & Eo & Ip).
  clear - Nd Eo Ip Na Hk. 
  assert (NoDup (o1 ++ k :: i1)) as Nd2 by (rewrite <- Eo; exact Nd).
  apply in_split in Ip as (c & d & ->).
  assert (E2 : a ++ p :: (k :: b) = (o1 ++ k :: c) ++ p :: d) by (rewrite <- app_assoc; exact Eo).
  assert (In k a \/ ~ In k a) as [Ia|Ia] by (destruct (in_dec Nat.eq_dec k a); auto).
  - apply NoDup_remove_1 in Nd. clear - Nd Ia. apply in_split in Ia as (x & y & ->). rewrite <- app_assoc in Nd. cbn in Nd. apply NoDup_remove_2 in Nd. apply Nd.
    apply in_or_app. right. apply in_or_app. right. left. reflexivity.
  - assert (In k (firstn (length a) (a ++ p :: k :: b))) as K; [|rewrite firstn_app, Nat.sub_diag, firstn_all in K; cbn in K; rewrite app_nil_r in K; auto].
    assert (length a = length (o1 ++ k :: c)) as Le.
    { assert (Q : forall (x y x' y' : list nat) q, ~ In q x -> ~ In q x' -> x ++ q :: y = x' ++ q :: y' -> x = x').
      { clear. induction x as [|e x IH]; intros y [|e' x'] y' q N N' E; cbn in *; [reflexivity| | |].
        - injection E as -> _. tauto.
        - injection E as -> _. tauto.
        - injection E as -> E. f_equal. eapply IH; [| |exact E]; tauto. }
      rewrite (Q _ _ _ _ p Na) with (2 := E2); [reflexivity|]. intro I.
      assert (NoDup ((o1 ++ k :: c) ++ p :: d)) as N3 by (rewrite <- E2; exact Nd). apply NoDup_remove_2 in N3. apply N3. apply in_or_app. auto. }
    rewrite E2, Le, firstn_app, Nat.sub_diag, firstn_all. cbn. rewrite app_nil_r. apply in_or_app. right. left. reflexivity.
Qed.
(** Missing: the frames C67 does not cover, and layers whose class names are equal (refuted below) *)
Theorem C75_frame_partial : forall me n f p g, frame_parse me n = Ok f -> payload_at f p -> NoDup (map ly_name (fr_layers f)) ->
  (forall i l from, layer_at f i l -> ly_spec l <> SCustom LChecksum from []) ->
  (forall i l a nm from v, layer_at f i l -> ly_spec l = SChecksum a nm from [] v -> p < i) ->
  forall o, arranges me f (Ok o) ->
  wire (fun i => p < i) o (seq 0 (length (fr_layers f))) /\ encloses f p o /\
  exists ls out defs top ts, stacked f g o ls /\ layers_def ls = Ok out /\ tokens out = tokens (print_stack defs top) /\ unfolds defs top ts /\ Forall2 is_class_of ls ts /\
    (NoDup (map (fun l => genClassName (ly_name l)) (fr_layers f)) -> NoDup (map la_name defs)) /\
    (snd top = true <-> List.Exists deals_with_messages (fr_layers f)).
Proof.
  intros me n f p g H P Nn Nc Np o Ar. destruct (C67_order_partial me n f p H P Nn Nc Np) as (r & Ar' & _ & _ & O).
  rewrite (C67_unique _ _ _ _ Ar' Ar) in O. destruct (O o eq_refl) as [W En]. split; [exact W|]. split; [exact En|].
  destruct (payload_last f p o P W En) as (a & -> & Na). pose proof (wire_perm _ _ _ W) as Pm.
  assert (K : forall q, incl q (seq 0 (length (fr_layers f))) -> exists ls, stacked f g q ls).
  { clear. induction q as [|i q IH]; intro I; [exists []; constructor|]. destruct IH as (ls & S); [intros y Y; apply I; now right|].
    destruct (nth_error (fr_layers f) i) as [l|] eqn:E.
    - exists ((l, g i) :: ls). constructor; [split; [exact E|reflexivity]|exact S].
    - exfalso. apply nth_error_None in E. specialize (I i (or_introl eq_refl)). apply in_seq in I. lia. }
  destruct (K a) as (outer & So). { intros y Y. apply (Permutation_in _ Pm), in_or_app. auto. }
  destruct P as (pl & Pl & Pk). assert (ly_spec pl = SPayload) as Sp by (revert Pk; clear; destruct (ly_spec pl) eqn:E; unfold ly_kind; rewrite ?E; cbn; congruence).
  assert (Forall (fun x => ly_spec (fst x) <> SPayload) outer) as Fo.
  { apply Forall_forall. intros x I S. revert So I S Na. clear - H Pl Pk. unfold stacked. intro So. induction So as [|i y q ls [L _] So IH]; [intros []|].
    intros [->|I] S Na; [|apply (IH I S); intro; apply Na; now right].
    apply Na. left. eapply payload_unique; [apply (frame_parse_verified _ _ _ H)| |]; [exists (fst x); split; [exact L|unfold ly_kind; now rewrite S]|exists pl; auto]. }
  assert (stacked f g (a ++ [p]) (outer ++ [(pl, g p)])) as St by (apply Forall2_app; [exact So|constructor; [split; [exact Pl|reflexivity]|constructor]]).
  destruct (C75_stack outer pl (g p) Sp Fo) as (out & defs & top & ts & E & Tt & Nm & U & C & _ & Tp & _).
  assert (Permutation (map fst (outer ++ [(pl, g p)])) (fr_layers f)) as Pf.
  { assert (map fst (outer ++ [(pl, g p)]) = map (fun i => nth i (fr_layers f) pl) (a ++ [p])) as ->.
    { clear - St. unfold stacked in St. induction St as [|i x q ls [L _] St IH]; [reflexivity|]. cbn [map]. rewrite IH. f_equal. symmetry. now apply nth_error_nth. }
    rewrite (Permutation_map _ Pm).
    assert (map (fun i => nth i (fr_layers f) pl) (seq 0 (length (fr_layers f))) = fr_layers f) as ->; [|reflexivity].
    apply (nth_ext _ _ pl pl); rewrite map_length, seq_length; [reflexivity|]. intros k Hk.
    rewrite (nth_indep _ pl (nth 0 (fr_layers f) pl)) by (rewrite map_length, seq_length; exact Hk).
    rewrite (map_nth (fun i => nth i (fr_layers f) pl) (seq 0 (length (fr_layers f))) 0 k). now rewrite seq_nth by exact Hk. }
  exists (outer ++ [(pl, g p)]), out, defs, top, ts. repeat (split; [assumption|]). split.
  - intro Nd. rewrite Nm. rewrite map_rev. apply (Permutation_NoDup (Permutation_rev _)).
    rewrite <- (map_map fst (fun l => genClassName (ly_name l))). apply (Permutation_NoDup (Permutation_sym (Permutation_map _ Pf))). exact Nd.
  - rewrite Tp. rewrite !Exists_exists. split; intros (l & I & D); exists l; split; auto; [apply (Permutation_in _ Pf I)|apply (Permutation_in _ (Permutation_sym Pf) I)].
Qed.
Print Assumptions C75_frame_partial.

Definition ex_parts (i : nat) : gparts :=
  mkParts (L "/// @brief Fields.") (L "/// @brief Layer.") (L "typename ns::Field") (L "framing::Frame") (L "ns::Custom") (L "ns::Esc") 0 (Nat.ltb 2 i).
(** the frame of the examples of C67 meets the hypotheses; its stack *)
Example C75_ex : ex_frame ex_layers = Ok ex_order /\ payload_at ex_order 2 /\ plain ex_order 2 = true /\ arranges ex_me ex_order (Ok [5; 0; 4; 3; 1; 2]) /\
  stacked ex_order ex_parts [5; 0; 4; 3; 1; 2] (map (fun i => (nth i (fr_layers ex_order) (mkLayer [] [] [] None SPayload), ex_parts i)) [5; 0; 4; 3; 1; 2]) /\
  NoDup (map (fun l => genClassName (ly_name l)) (fr_layers ex_order)).
Proof.
  split; [apply C67_ex|]. split; [apply C67_ex|]. split; [apply C67_ex|]. split; [apply C67_ex|].
  split; [repeat constructor|]. 
  assert (map (fun l => genClassName (ly_name l)) (fr_layers ex_order) = [T "A"; T "B"; T "P"; T "C"; T "D"; T "E"]) as -> by (vm_compute; reflexivity).
  repeat constructor; intro I; repeat (destruct I as [I|I]; [discriminate I|]); destruct I.
Qed.
(** the text for an id in front of the payload: "using Id = comms::frame::MsgIdLayer<typename ns::Field, TMessage, TAllMessages, Data, typename TOpt::framing::Frame>" *)
Example C75_text_ex :
  let ls := [(mkLayer (T "id") [] [] None SId, ex_parts 0); (mkLayer (T "data") [] [] None SPayload, ex_parts 1)] in
  exists out, layers_def ls = Ok out /\
    tokens out = tokens (print_stack
      [mkAlias (T "/// @brief Fields.") (T "/// @brief Layer.") false (T "Data") (mkLType (T "comms::frame::MsgDataLayer") [T "comms::option::def::FieldType<typename DataMembers::Field>"] None []);
       mkAlias (T "/// @brief Fields.") (T "/// @brief Layer.") true (T "Id")
         (mkLType (T "comms::frame::MsgIdLayer") [T "typename ns::Field"; T "TMessage"; T "TAllMessages"] (Some (T "Data", false)) [T "typename TOpt::framing::Frame"])] (T "Id", true)) /\
    frame_base (T "frame") ls = T "FrameLayers<TOpt>::template Stack<TMessage, TAllMessages>".
Proof. eexists. split; [vm_compute; reflexivity|]. split; vm_compute; reflexivity. Qed.

(** Layers with different names can have one class name: the code then defines it twice, and neither the parser nor the generator objects *)
Definition ex_clash : frame := Eval vm_compute in frame_of [ly "size" "abc" []; ly "id" "Abc" []; ly "payload" "p" []].
Theorem C75_names_refuted : exists n f o ls out defs top, frame_parse ex_me n = Ok f /\ NoDup (map ly_name (fr_layers f)) /\ arranges ex_me f (Ok o) /\
  stacked f ex_parts o ls /\ layers_def ls = Ok out /\ tokens out = tokens (print_stack defs top) /\ map la_name defs = [T "P"; T "Abc"; T "Abc"].
Proof.
  exists (of_layers [ly "size" "abc" []; ly "id" "Abc" []; ly "payload" "p" []]), ex_clash, [0; 1; 2].
  exists (map (fun i => (nth i (fr_layers ex_clash) (mkLayer [] [] [] None SPayload), ex_parts i)) [0; 1; 2]).
  assert (Forall (fun x => ly_spec (fst x) <> SPayload) (map (fun i => (nth i (fr_layers ex_clash) (mkLayer [] [] [] None SPayload), ex_parts i)) [0; 1])) as F by (repeat constructor; discriminate).
  destruct (C75_stack _ (nth 2 (fr_layers ex_clash) (mkLayer [] [] [] None SPayload)) (ex_parts 2) eq_refl F) as (out & defs & top & ts & E & Tt & Nm & _).
  exists out, defs, top. split; [vm_compute; reflexivity|]. split.
  - assert (map ly_name (fr_layers ex_clash) = [T "abc"; T "Abc"; T "p"]) as -> by (vm_compute; reflexivity).
    repeat constructor; intro I; repeat (destruct I as [I|I]; [discriminate I|]); destruct I.
  - split; [exists 4; intro more; vm_compute; reflexivity|]. split; [repeat constructor|]. split; [exact E|]. split; [exact Tt|]. rewrite Nm. vm_compute. reflexivity.
Qed.
Print Assumptions C75_names_refuted.
