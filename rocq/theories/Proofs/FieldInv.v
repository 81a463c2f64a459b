(** Induction over fields and a generic invariant of field parsing. *)
From Verif.Model Require Import Base Common Xml Units Field FieldCommon IntField EnumField SetField FloatField OptCond Composite.
From Verif.Spec Require Import Texts IntSpec CondSpec FieldSpec.
From Verif.Proofs Require Import BaseFacts CommonFacts.

Section FieldInd.
Variable P : field -> Prop.
Hypothesis H : forall f, Forall P (parts f) -> P f.
Fixpoint field_ind' (f : field) : P f :=
  let go := fix go (l : list field) : Forall P l :=
       match l with [] => Forall_nil P | x :: l' => Forall_cons x (field_ind' x) (go l') end in
  let op := fun (o : option (bool * field)) =>
       match o as o return Forall P (opt_part o) with
       | None => Forall_nil P
       | Some (b, g) => Forall_cons g (field_ind' g) (Forall_nil P)
       end in
  match f as f return P f with
  | FInt c s => H (FInt c s) (Forall_nil P)
  | FEnum c s => H (FEnum c s) (Forall_nil P)
  | FSet c s => H (FSet c s) (Forall_nil P)
  | FFloat c s => H (FFloat c s) (Forall_nil P)
  | FBitfield c e ms v => H (FBitfield c e ms v) (go ms)
  | FBundle c ms a v => H (FBundle c ms a v) (go ms)
  | FVariant c d ms => H (FVariant c d ms) (go ms)
  | FString c s pre => H (FString c s pre) (op pre)
  | FData c s pre => H (FData c s pre) (op pre)
  | FList c s el a b d t =>
      H (FList c s el a b d t)
        (match el as el return Forall P (snd el :: opt_part a ++ opt_part b ++ opt_part d ++ opt_part t) with
         | (o, g) => Forall_cons g (field_ind' g)
            (proj2 (Forall_app _ _ _) (conj (op a) (proj2 (Forall_app _ _ _) (conj (op b)
            (proj2 (Forall_app _ _ _) (conj (op d) (op t)))))))
         end)
  | FRef c b t => H (FRef c b t) (Forall_cons t (field_ind' t) (Forall_nil P))
  | FOptional c s o g d => H (FOptional c s o g d) (Forall_cons g (field_ind' g) (Forall_nil P))
  end.
End FieldInd.

(** [P] holds of the field and of all its parts *)
Inductive all (P : field -> Prop) : field -> Prop :=
| all_intro f : P f -> (forall g, In g (parts f) -> all P g) -> all P f.
Lemma all_here P f : all P f -> P f.
Proof. inversion 1; auto. Qed.
Lemma all_parts P f g : all P f -> In g (parts f) -> all P g.
Proof. inversion 1; auto. Qed.
Lemma all_part_of P f g : all P f -> part_of g f -> P g.
Proof. intros H1 H2. induction H2; [apply all_here; exact H1|]. apply IHpart_of. eapply all_parts; eauto. Qed.
Lemma part_of_trans g h f : part_of g h -> part_of h f -> part_of g f.
Proof. intros H1 H2. induction H2; [exact H1|]. eapply part_sub; eauto. Qed.
Lemma part_of_parts g f : In g (parts f) -> part_of g f.
Proof. intros. eapply part_sub; [eassumption|constructor]. Qed.

Lemma parts_map_common h f : parts (map_common h f) = parts f.
Proof. destruct f; reflexivity. Qed.
Lemma parts_bump v f : parts (bump_since v f) = parts f.
Proof. apply parts_map_common. Qed.
Lemma clone_common f : f_common (clone f) = f_common f.
Proof. destruct f; reflexivity. Qed.
Lemma clone_name f : f_name (clone f) = f_name f.
Proof. unfold f_name. rewrite clone_common. reflexivity. Qed.
Lemma clone_kind f : f_kind (clone f) = f_kind f.
Proof. destruct f; reflexivity. Qed.
Lemma map_common_kind h f : f_kind (map_common h f) = f_kind f.
Proof. destruct f; reflexivity. Qed.
Lemma map_common_common h f : f_common (map_common h f) = h (f_common f).
Proof. destruct f; reflexivity. Qed.
Lemma bump_name v f : f_name (bump_since v f) = f_name f.
Proof. destruct f; reflexivity. Qed.

Definition clone_if (o : bool) (g : field) : field := if o then clone g else g.
Lemma in_clone_opt g o : In g (opt_part (clone_sub o)) -> exists h, In h (opt_part o) /\ (g = clone h \/ g = h).
Proof.
  destruct o as [[[|] x]|]; cbn; [intros [<-|[]]; exists x; auto..|intros []].
Qed.
Lemma in_parts_clone g f : In g (parts (clone f)) -> exists h, In h (parts f) /\ (g = clone h \/ g = h).
Proof.
  destruct f as [c s|c s|c s|c s|c e ms v|c ms a v|c s pre|c s pre|c s el cnt len elen term|c b t|c s o f d|c d ms];
    cbn [clone parts]; try (intros []; fail).
  - intros H. apply in_map_iff in H as (h & <- & Hi). eauto.
  - intros H. apply in_map_iff in H as (h & <- & Hi). eauto.
  - apply in_clone_opt.
  - apply in_clone_opt.
  - change (match cnt with Some (true, g0) => Some (true, clone g0) | _ => cnt end) with (clone_sub cnt).
    change (match len with Some (true, g0) => Some (true, clone g0) | _ => len end) with (clone_sub len).
    change (match elen with Some (true, g0) => Some (true, clone g0) | _ => elen end) with (clone_sub elen).
    change (match term with Some (true, g0) => Some (true, clone g0) | _ => term end) with (clone_sub term).
    cbn [In]. rewrite !in_app_iff. intros [H|[H|[H|[H|H]]]].
    + exists (snd el). split; [left; reflexivity|]. destruct el as [[|] x]; cbn in *; auto.
    + apply in_clone_opt in H as (h & Hi & E). exists h. rewrite !in_app_iff. auto 6.
    + apply in_clone_opt in H as (h & Hi & E). exists h. rewrite !in_app_iff. auto 6.
    + apply in_clone_opt in H as (h & Hi & E). exists h. rewrite !in_app_iff. auto 6.
    + apply in_clone_opt in H as (h & Hi & E). exists h. rewrite !in_app_iff. auto 6.
  - intros [<-|[]]. exists t. cbn; auto.
  - intros [<-|[]]. exists f. destruct o; cbn; auto.
  - intros H. apply in_map_iff in H as (h & <- & Hi). eauto.
Qed.

Section Invariant.
Variable P : field -> Prop.
Hypothesis Pclone : forall f, all P f -> P (clone f).
Hypothesis Pbump : forall v f, all P f -> P (bump_since v f).

Lemma all_clone f : all P f -> all P (clone f).
Proof.
  induction f as [f IH] using field_ind'. intros H. constructor; [apply Pclone; exact H|].
  intros g Hg. apply in_parts_clone in Hg as (h & Hh & E). rewrite Forall_forall in IH.
  pose proof (all_parts _ _ _ H Hh) as K. destruct E as [-> | ->]; [apply IH; assumption|exact K].
Qed.
Lemma all_bump v f : all P f -> all P (bump_since v f).
Proof.
  intros H. constructor; [apply Pbump; exact H|]. rewrite parts_bump. intros g. apply all_parts. exact H.
Qed.
End Invariant.

Section Parts.
Variables (rec : ctx -> node -> res field) (e : env) (Q : field -> Prop).
Hypothesis Hrec : forall x n f, rec x n = Ok f -> Q f.
Hypothesis Hfind : forall s g, e_find e s = Some g -> Q g.
Hypothesis Hbump : forall v f, Q f -> Q (bump_since v f).
Hypothesis Hclone : forall f, Q f -> Q (clone f).

Lemma prefix_parts x xs p n k cur d : Forall Q (opt_part (snd cur)) ->
  update_prefix rec e x xs p n k cur = Ok d -> Forall Q (opt_part (snd d)).
Proof.
  unfold update_prefix. intros Hc H. apply bind_Ok in H as (d1 & H1 & H2).
  assert (Hd1 : Forall Q (opt_part (snd d1))).
  { unfold prefix_from_ref in H1. apply bind_Ok in H1 as (u & _ & H1).
    destruct (find_prop p k) as [[|ch r]|]; try discriminate; [|injection H1 as <-; exact Hc].
    destruct (ch_eqb ch c_sibling); inv_ok.
    - constructor.
    - constructor; [|constructor]. eapply Hfind; eassumption. }
  unfold prefix_as_child in H2. destruct (parseGetChildrenNamed n k) as [|ch [|]]; try discriminate.
  - injection H2 as <-. exact Hd1.
  - destruct (parseGetChildren ch) as [|m [|]]; destruct (find_prop p k); inv_ok; try exact Hd1.
    constructor; [|constructor]. eapply Hrec; eassumption.
Qed.
Lemma nested_ref_parts p k cur d : Forall Q (opt_part cur) ->
  nested_from_ref e p k cur = Ok d -> Forall Q (opt_part d).
Proof.
  unfold nested_from_ref. intros Hc H. apply bind_Ok in H as (u & _ & H).
  destruct (find_prop p k); inv_ok; [|exact Hc]. constructor; [|constructor]. eapply Hfind; eassumption.
Qed.
Lemma nested_child_parts xs p n k em cur d : (forall f, em = Ok f -> Q f) -> Forall Q (opt_part cur) ->
  nested_as_child rec xs p n k em cur = Ok d -> Forall Q (opt_part d).
Proof.
  unfold nested_as_child. intros He Hc H. apply bind_Ok in H as (u & _ & H).
  destruct (parseGetChildrenNamed n k) as [|ch chs]; destruct (parseGetChildrenOf n all_types false) as [|m ms]; inv_ok; try exact Hc.
  - constructor; [|constructor]. eapply Hrec; eassumption.
  - destruct (find_prop p k); inv_ok; [exact Hc|].
    constructor; [|constructor]. destruct (parseGetChildren ch); [apply He; assumption|eapply Hrec; eassumption].
Qed.
Lemma mapM_rec_parts xr l fs : mapM (rec xr) l = Ok fs -> Forall Q fs.
Proof.
  intros H. apply Forall_forall. intros f Hf. eapply mapM_In in Hf as (a & _ & E); [|exact H]. eapply Hrec; exact E.
Qed.
Lemma replacements_parts n ts xr fs : replacements rec e n ts xr = Ok (Some fs) -> Forall Q fs.
Proof.
  unfold replacements. destruct (parseGetChildrenNamed n (L "replace")) as [|m [|]]; try discriminate.
  destruct (negb (member_replace_supported e)); [discriminate|].
  intros H. inv_ok. eapply mapM_rec_parts; eassumption.
Qed.
Lemma replace_first_parts ms m ms' : replace_first ms m = Some ms' -> Forall Q ms -> Q m -> Forall Q ms'.
Proof.
  revert ms'. induction ms as [|y ms IH]; intros ms' H Hm Qm; [discriminate|].
  inversion Hm; subst. cbn in H. destruct (str_eqb (f_name m) (f_name y)).
  - injection H as <-. constructor; assumption.
  - destruct (replace_first ms m) as [l|]; [|discriminate]. injection H as <-. constructor; [assumption|]. apply IH; auto.
Qed.
Lemma replace_members_parts same ms repl ms' : Forall Q ms -> (forall fs, repl = Some fs -> Forall Q fs) ->
  replace_members same ms repl = Ok ms' -> Forall Q ms'.
Proof.
  unfold replace_members. destruct repl as [fs|]; intros Hm Hr H; [|injection H as <-; exact Hm].
  specialize (Hr fs eq_refl). rewrite Forall_forall in Hr.
  eapply (foldM_inv_In _ (Forall Q)) in H; [exact H| |exact Hm].
  intros a b a' Hb Ha X. inv_ok. eapply replace_first_parts; [eassumption|exact Ha|]. auto.
Qed.
Lemma bitfield_members_parts xs n c ms0 ms : Forall Q ms0 -> bitfield_members rec xs n c ms0 = Ok ms -> Forall Q ms.
Proof.
  unfold bitfield_members. intros Hm H. apply bind_Ok in H as (ns & _ & H). destruct ns as [ns|]; inv_ok.
  - apply Forall_forall. intros f Hf. eapply mapM_In in Hf as (a & _ & E); [|eassumption].
    cbv beta in E. inv_ok. eapply Hrec; eassumption.
  - apply Forall_map. eapply Forall_impl; [|exact Hm]. intros f. apply Hbump.
Qed.
Lemma kept_parts c ms : Forall Q ms -> Forall Q (kept_members c ms).
Proof.
  intros H. unfold kept_members. apply Forall_map. apply Forall_forall. intros f Hf.
  apply filter_In in Hf as [Hf _]. rewrite Forall_forall in H. auto.
Qed.
Lemma group_members_parts xs n sib c ms0 ms : Forall Q ms0 -> group_members rec e xs n sib c ms0 = Ok ms -> Forall Q ms.
Proof.
  unfold group_members. intros Hm H. apply bind_Ok in H as (ns & _ & H). apply bind_Ok in H as (ms1 & H1 & H). inv_ok.
  destruct ns as [ns|]; inv_ok.
  - revert H. apply (foldM_inv _ (Forall Q)).
    + intros a b a' Ha X. inv_ok. apply Forall_app. split; [exact Ha|]. constructor; [|constructor]. eapply Hrec; eassumption.
    + apply kept_parts. exact Hm.
  - apply kept_parts. exact Hm.
Qed.
Lemma opt_clone_parts o : Forall Q (opt_part o) -> Forall Q (opt_part (clone_sub o)).
Proof.
  intros H. apply Forall_forall. intros g Hg. apply in_clone_opt in Hg as (h & Hh & E).
  rewrite Forall_forall in H. destruct E as [-> | ->]; auto.
Qed.
Lemma map_clone_parts ms : Forall Q ms -> Forall Q (map clone ms).
Proof. intros H. apply Forall_map. eapply Forall_impl; [|exact H]. intros f. apply Hclone. Qed.
Lemma Forall_app4 (a b c d : list field) : Forall Q a -> Forall Q b -> Forall Q c -> Forall Q d -> Forall Q (a ++ b ++ c ++ d).
Proof. intros. repeat (apply Forall_app; split); assumption. Qed.

Lemma kind_parse_parts x c0 c p n k old repl f :
  (forall o, old = Some o -> Forall Q (parts o)) -> (forall fs, repl = Some fs -> Forall Q fs) ->
  kind_parse rec e x c0 c p n k old repl = Ok f -> Forall Q (parts f).
Proof.
  intros Hold Hrepl H. unfold kind_parse in H.
  destruct k.
  - inv_ok. constructor.
  - inv_ok. constructor.
  - inv_ok. constructor.
  - inv_ok. constructor.
  - (* bitfield *)
    assert (X : exists en0 ms0 vc0, match old with Some (FBitfield _ en ms vc) => (Some en, map clone ms, vc) | _ => (None, [], None) end
       = (en0, ms0, vc0) /\ Forall Q ms0).
    { destruct old as [o|]; [|eexists _, _, _; split; [reflexivity|constructor]].
      specialize (Hold o eq_refl). destruct o; try (eexists _, _, _; split; [reflexivity|constructor]; fail).
      eexists _, _, _; split; [reflexivity|]. apply map_clone_parts. exact Hold. }
    destruct X as (en0 & ms0 & vc0 & E & Hm). rewrite E in H. unfold bitfield_parse in H. inv_ok. cbn [parts].
    eapply bitfield_members_parts; [|eassumption]. eapply replace_members_parts; [exact Hm|exact Hrepl|eassumption].
  - apply bind_Ok in H as (ra & _ & H).
    assert (X : exists ms0 als0 vc0, match old with Some (FBundle _ ms als vc) => (map clone ms, (if ra : bool then als else []), vc) | _ => ([], [], None) end
       = (ms0, als0, vc0) /\ Forall Q ms0).
    { destruct old as [o|]; [|eexists _, _, _; split; [reflexivity|constructor]].
      specialize (Hold o eq_refl). destruct o; try (eexists _, _, _; split; [reflexivity|constructor]; fail).
      eexists _, _, _; split; [reflexivity|]. apply map_clone_parts. exact Hold. }
    destruct X as (ms0 & als0 & vc0 & E & Hm). rewrite E in H. unfold bundle_parse in H. inv_ok. cbn [parts].
    eapply group_members_parts; [|eassumption]. eapply replace_members_parts; [exact Hm|exact Hrepl|eassumption].
  - (* string *)
    apply bind_Ok in H as (u & _ & H). unfold string_parse in H.
    assert (X : exists s0 pre0, match (match old with Some (FString _ s q) => Some (s, clone_sub q) | _ => None end) with
        | Some o => o | None => (mkString [] [] 0 [] [] false, None) end = (s0, pre0) /\ Forall Q (opt_part pre0)).
    { destruct old as [o|]; [|eexists _, _; split; [reflexivity|constructor]].
      specialize (Hold o eq_refl). destruct o; try (eexists _, _; split; [reflexivity|constructor]; fail).
      eexists _, _; split; [reflexivity|]. apply opt_clone_parts. exact Hold. }
    destruct X as (s0 & pre0 & E & Hm). rewrite E in H. inv_all. cbn [parts].
    eapply prefix_parts; [|eassumption]. exact Hm.
  - apply bind_Ok in H as (u & _ & H). unfold data_parse in H.
    assert (X : exists s0 pre0, match (match old with Some (FData _ s q) => Some (s, clone_sub q) | _ => None end) with
        | Some o => o | None => (mkData [] 0 [] [], None) end = (s0, pre0) /\ Forall Q (opt_part pre0)).
    { destruct old as [o|]; [|eexists _, _; split; [reflexivity|constructor]].
      specialize (Hold o eq_refl). destruct o; try (eexists _, _; split; [reflexivity|constructor]; fail).
      eexists _, _; split; [reflexivity|]. apply opt_clone_parts. exact Hold. }
    destruct X as (s0 & pre0 & E & Hm). rewrite E in H. inv_all. cbn [parts].
    eapply prefix_parts; [|eassumption]. exact Hm.
  - (* list *)
    apply bind_Ok in H as (u & _ & H). unfold list_parse in H.
    match type of H with (let (_, _) := ?t in _) = _ => assert (X : exists s0 el a b d tm, t = (s0, el, a, b, d, tm) /\
      Forall Q (opt_part el) /\ Forall Q (opt_part a) /\ Forall Q (opt_part b) /\ Forall Q (opt_part d) /\ Forall Q (opt_part tm)) end.
    { destruct old as [o|]; [|eexists _, _, _, _, _, _; split; [reflexivity|repeat split; constructor]].
      specialize (Hold o eq_refl). destruct o; try (eexists _, _, _, _, _, _; split; [reflexivity|repeat split; constructor]; fail).
      destruct elem as [o g]. cbn [parts snd] in Hold. inversion Hold as [|? ? Hg Hr]; subst.
      apply Forall_app in Hr as [Ha Hr]. apply Forall_app in Hr as [Hb Hr]. apply Forall_app in Hr as [Hd Ht].
      eexists _, _, _, _, _, _; split; [reflexivity|].
      split; [constructor; [destruct o; auto|constructor]|]. auto using opt_clone_parts. }
    destruct X as (s0 & el & a & b & d & tm & E & H1 & H2 & H3 & H4 & H5). rewrite E in H. inv_ok.
    repeat match goal with X : nested_from_ref _ _ _ _ = Ok _ |- _ => eapply nested_ref_parts in X; [|eassumption] end.
    repeat match goal with X : nested_as_child _ _ _ _ _ _ _ = Ok _ |- _ =>
      eapply nested_child_parts in X; [|intros; discriminate|eassumption] end.
    subst. match goal with X : Forall Q (opt_part (Some ?y)) |- _ => destruct y as [oo gg]; inversion X; subst end.
    repeat match goal with X : update_prefix _ _ _ _ _ _ _ _ = Ok _ |- _ => eapply prefix_parts in X; [|eassumption] end.
    cbn [parts snd]. constructor; [assumption|]. apply Forall_app4; try assumption.
    match goal with |- Forall Q (opt_part (snd (if ?b then _ else _))) => destruct b; [constructor|assumption] end.
  - apply bind_Ok in H as (u & _ & H). unfold ref_parse in H. apply bind_Ok in H as (u' & _ & H).
    destruct (find_prop p (L "field")); [|destruct old as [o|]; [|discriminate]; destruct o; try discriminate].
    + assert (exists o', (match old with Some (FRef _ b t) => Some (b, t) | _ => None end) = o') as (o' & E) by eauto.
      rewrite E in H. inv_ok. cbn [parts]. constructor; [|constructor]. eapply Hfind; eassumption.
    + injection H as <-. apply (Hold _ eq_refl).
  - apply bind_Ok in H as (u & _ & H). unfold optional_parse in H.
    match type of H with (let (_, _) := ?t in _) = _ => assert (X : exists s0 el d, t = (s0, el, d) /\ Forall Q (opt_part el)) end.
    { destruct old as [o|]; [|eexists _, _, _; split; [reflexivity|constructor]].
      specialize (Hold o eq_refl). destruct o; try (eexists _, _, _; split; [reflexivity|constructor]; fail).
      cbn [parts] in Hold. inversion Hold; subst.
      eexists _, _, _; split; [reflexivity|]. constructor; [destruct own; auto|constructor]. }
    destruct X as (s0 & el & d & E & H1). rewrite E in H. inv_ok.
    repeat match goal with X : nested_from_ref _ _ _ _ = Ok _ |- _ => eapply nested_ref_parts in X; [|eassumption] end.
    repeat match goal with X : nested_as_child _ _ _ _ _ _ _ = Ok _ |- _ =>
      eapply nested_child_parts in X; [|intros; discriminate|eassumption] end.
    subst. match goal with X : Forall Q (opt_part (Some ?y)) |- _ => destruct y as [oo gg]; inversion X; subst end.
    cbn [parts snd]. constructor; [assumption|constructor].
  - match type of H with (let (_, _) := ?t in _) = _ => assert (X : exists ms0 d, t = (ms0, d) /\ Forall Q ms0) end.
    { destruct old as [o|]; [|eexists _, _; split; [reflexivity|constructor]].
      specialize (Hold o eq_refl). destruct o; try (eexists _, _; split; [reflexivity|constructor]; fail).
      eexists _, _; split; [reflexivity|]. apply map_clone_parts. exact Hold. }
    destruct X as (ms0 & d0 & E & Hm). rewrite E in H. unfold variant_parse in H. inv_ok. cbn [parts].
    eapply group_members_parts; [|eassumption]. eapply replace_members_parts; [exact Hm|exact Hrepl|eassumption].
Qed.
End Parts.

Lemma check_reuse_old e x k p c0 old : check_reuse e x k p = Ok (c0, old) ->
  c_inBitfield c0 = in_bitfield x /\
  match find_prop p (L "reuse") with
  | None => old = None /\ c0 = init_common (in_bitfield x)
  | Some v => exists g, old = Some g /\ e_find e v = Some g /\ f_kind g = k /\
      c_since c0 = c_since (f_common g) /\ c_deprecated c0 = c_deprecated (f_common g) /\
      c_name c0 = c_name (f_common g)
  end.
Proof.
  unfold check_reuse. intros H. apply bind_Ok in H as (u & _ & H).
  destruct (find_prop p (L "reuse")) as [v|].
  - inv_ok. subst.
    match goal with X : kind_eqb _ _ = true |- _ => rename X into K end.
    split; [reflexivity|]. eexists. split; [reflexivity|]. split; [eassumption|].
    split; [|split; [|split]; reflexivity].
    match goal with |- f_kind ?g = _ => destruct (f_kind g), k; try discriminate K; reflexivity end.
  - inv_ok. subst. auto.
Qed.

Section Main.
Variable P : field -> Prop.
Hypothesis Pclone : forall f, all P f -> P (clone f).
Hypothesis Pbump : forall v f, all P f -> P (bump_since v f).
(** the field just built satisfies [P] when everything it is built from does *)
Hypothesis Pparse : forall fuel e x n k p c0 old repl c f,
  env_num_ok e -> (forall s g, e_find e s = Some g -> all P g) ->
  (forall x n f, field_parse fuel e x n = Ok f -> all P f) ->
  assoc (n_name n) kind_names = Some k ->
  field_props n (extra_props k) (possible_props k) = Ok p ->
  check_reuse e x k p = Ok (c0, old) -> (forall o, old = Some o -> all P o) ->
  replacements (field_parse fuel e) e n (replace_types k) (mkCtx (PField k) (c_since c0) (c_deprecated c0)) = Ok repl ->
  (forall fs, repl = Some fs -> Forall (all P) fs) ->
  update_common e x p c0 = Ok c ->
  kind_parse (field_parse fuel e) e x c0 c p n k old repl = Ok f ->
  verify_field e f = Ok tt -> Forall (all P) (parts f) -> P f.

Lemma field_parse_all e : env_num_ok e -> (forall s g, e_find e s = Some g -> all P g) ->
  forall fuel x n f, field_parse fuel e x n = Ok f -> all P f.
Proof.
  intros He Hf. induction fuel as [|fuel IH]; intros x n f H; [discriminate|].
  cbn [field_parse] in H.
  apply bind_Ok in H as (k & Hk & H). apply of_opt_Ok in Hk.
  apply bind_Ok in H as (p & Hp & H). apply bind_Ok in H as ([c0 old] & Hr & H).
  apply bind_Ok in H as (repl & Hrep & H). apply bind_Ok in H as (c & Hc & H).
  apply bind_Ok in H as (f' & Hkp & H). apply bind_Ok in H as ([] & Hv & H). injection H as ->.
  assert (Hold : forall o, old = Some o -> all P o).
  { intros o ->. apply check_reuse_old in Hr as [_ Hr]. destruct (find_prop p (L "reuse")).
    - destruct Hr as (g & E & Hg & _). injection E as ->. eauto.
    - destruct Hr as [E _]. discriminate. }
  assert (Hrp : forall fs, repl = Some fs -> Forall (all P) fs).
  { intros fs ->. eapply replacements_parts; [|exact Hrep]. exact IH. }
  assert (Hparts : Forall (all P) (parts f)).
  { eapply (kind_parse_parts _ _ (all P) IH Hf); [| | | |exact Hkp].
    - intros. apply all_bump; assumption.
    - intros. apply all_clone; assumption.
    - intros o Ho. apply Forall_forall. intros g Hg. eapply all_parts; eauto.
    - exact Hrp. }
  constructor; [|rewrite Forall_forall in Hparts; exact Hparts].
  eapply Pparse; eauto.
Qed.
Theorem accepted_all f : accepted f -> all P f.
Proof.
  induction 1 as [e x n f He Hf IH H]. eapply field_parse_all; eauto.
Qed.
Corollary accepted_part f g : accepted f -> part_of g f -> P g.
Proof. intros H1 H2. eapply all_part_of; [apply accepted_all; exact H1|exact H2]. Qed.
End Main.
