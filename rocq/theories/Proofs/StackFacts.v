(** Proofs about Model/CommsStack.v. *)
From Coq Require Import Lia ZifyBool ZifyNat Arith.
From Verif.Model Require Import Base Common Units Field Message Frame GenUtil GenComms CommsStack.
From Verif.Spec Require Import Texts GenSpec TokenSpec StackCode.
From Verif.Proofs Require Import BaseFacts CommonFacts GenFacts TemplateFacts CommsIntFacts CondCodeFacts TokenFacts FactoryFacts PrefixFacts ReadFacts.
Local Open Scope string_scope. Local Open Scope Z_scope. Local Open Scope list_scope.

(** ** Types of layers *)
Definition value_field (g : gparts) : txt := if genStrStartsWith (gp_field g) (L "typename") then gp_field g else L "typename " ++ gp_field g.
Definition alg_text (a : checksum_alg) (g : gparts) : txt :=
  match a with
  | AlgCustom => gp_custom g
  | AlgCcitt => T "comms::frame::checksum::Crc_CCITT"
  | Alg16 => T "comms::frame::checksum::Crc_16"
  | Alg32 => T "comms::frame::checksum::Crc_32"
  | AlgSum => T "comms::frame::checksum::BasicSum<" ++ value_field g ++ T "::ValueType>"
  | AlgXor => T "comms::frame::checksum::BasicXor<" ++ value_field g ++ T "::ValueType>"
  end.
Lemma value_named g : named_type (gp_field g) (value_field g).
Proof.
  unfold named_type, value_field, genStrStartsWith. change (L "typename") with (T "typename"). destruct (strip (T "typename") (gp_field g)) as [r|] eqn:E.
  - apply GenFacts.strip_some in E. split; [reflexivity|]. intro N. exfalso. eauto.
  - split; [|reflexivity]. intros (r & Er). exfalso. apply (proj1 (GenFacts.strip_none _ _) E r Er).
Qed.
Lemma alg_spec a g : algorithm a g (alg_text a g).
Proof.
  destruct a; cbn [algorithm alg_text]; try reflexivity; exists (value_field g); (split; [apply value_named|reflexivity]).
Qed.
Lemma alg_tokens a g : exists out, checksum_algorithm a g = Ok out /\ tokens out = tokens (alg_text a g).
Proof.
  unfold checksum_algorithm. destruct a; cbn [checksum_class is_nil].
  1: exists (gp_custom g); split; reflexivity.
  2-4: eexists; split; [reflexivity|vm_compute; reflexivity].
  all: cbn [alg_text]; change (if genStrStartsWith (gp_field g) (L "typename") then gp_field g else L "typename " ++ gp_field g) with (value_field g);
    generalize (value_field g); intro f; cbn zeta;
    match goal with |- context [is_nil ?x] => change (is_nil x) with false end; cbn iota;
    fill 20%nat; exists out; (split; [reflexivity|]); rewrite Tt; clear E Tt; cbn [substituted]; look; same_holes [(T "F", f)].
Qed.
Definition base_type (l : layer) (g : gparts) (p : option (txt * bool)) : ltype :=
  match ly_spec l with
  | SPayload => mkLType (T "comms::frame::MsgDataLayer") [T "comms::option::def::FieldType<typename " ++ genClassName (ly_name l) ++ T "Members::Field>"] None []
  | SId => mkLType (T "comms::frame::MsgIdLayer") [gp_field g; T "TMessage"; T "TAllMessages"] p [T "typename TOpt::" ++ gp_opts g]
  | SSize => mkLType (T "comms::frame::MsgSizeLayer") [gp_field g] p []
  | SValue _ _ pseudo => mkLType (T "comms::frame::TransportValueLayer") [gp_field g; number_text (gp_idx g)] p (if pseudo then [T "comms::option::def::PseudoValue"] else [])
  | SChecksum a _ _ until vbr => mkLType (match until with [] => T "comms::frame::ChecksumLayer" | _ => T "comms::frame::ChecksumPrefixLayer" end)
      [gp_field g; alg_text a g] p (if vbr then [T "comms::option::def::FrameLayerVerifyBeforeRead"] else [])
  | SSync seek _ vbr _ => mkLType (if gp_after g then T "comms::frame::SyncSuffixLayer" else T "comms::frame::SyncPrefixLayer") [gp_field g] p
      ((if seek then [T "comms::option::def::FrameLayerSeekField<" ++ gp_esc g ++ T ">"] else []) ++ (if vbr then [T "comms::option::def::FrameLayerVerifyBeforeRead"] else []))
  | SCustom sem _ _ => mkLType (gp_custom g) (gp_field g :: (match sem with LId => [T "TMessage"; T "TAllMessages"] | _ => [] end)) p [T "typename TOpt::" ++ gp_opts g]
  end.
Lemma base_class l g p : is_class_of (l, g) (base_type l g p).
Proof.
  unfold is_class_of, layer_class, base_type. cbn [fst snd].
  destruct (ly_spec l); cbn [lt_class lt_before lt_after]; repeat split; eauto using alg_spec.
Qed.
Ltac done n hs := cbn [join app]; fill n;
  match goal with Ee : genProcessTemplate _ _ _ = Ok ?o, Ht : tokens ?o = _ |- _ => exists o; (split; [reflexivity|]); rewrite Ht; clear Ee Ht end;
  cbn [substituted]; look; same_holes hs.
Lemma payload_tokens l g p : ly_spec l = SPayload -> exists out, def_base l g p = Ok out /\ tokens out = tokens (print_ltype (base_type l g None)).
Proof.
  intro S. unfold def_base, base_type. rewrite S. generalize (genClassName (ly_name l)). intro c.
  fill 20%nat. exists out. split; [reflexivity|]. rewrite Tt. clear E Tt.
  match goal with |- tokens ?x = _ => assert (x = substituted (fun h => lookup h [(T "C", c ++ T "Members")])
    [Text (T "comms::frame::MsgDataLayer<" ++ [nl] ++ T "    comms::option::def::FieldType<typename "); Hole (T "C"); Text (T "::Field>" ++ [nl] ++ T ">")]) as -> end.
  { cbn [substituted]. look. rewrite <- !app_assoc. reflexivity. }
  match goal with |- _ = tokens ?x => assert (x = substituted (fun h => lookup h [(T "C", c ++ T "Members")])
    [Text (T "comms::frame::MsgDataLayer<comms::option::def::FieldType<typename "); Hole (T "C"); Text (T "::Field>>")]) as -> end.
  { unfold print_ltype. cbn [lt_class lt_before lt_prev lt_after join app]. cbn [substituted]. look. rewrite <- !app_assoc. reflexivity. }
  apply same_tokens; [vm_compute; reflexivity|reflexivity].
Qed.
Ltac same_holes2 hs hs' :=
  rewrite <- ?app_assoc;
  match goal with |- tokens ?t = tokens ?t' =>
    let l := pieces_of hs t in let l' := pieces_of hs' t' in
    let E := fresh in let E' := fresh in
    assert (t = substituted (fun k => lookup k hs) l) as E by (cbn [substituted]; rewrite ?app_nil_r; reflexivity);
    assert (t' = substituted (fun k => lookup k hs') l') as E' by (cbn [substituted]; rewrite ?app_nil_r; reflexivity);
    rewrite E, E'; apply same_tokens; [vm_compute; reflexivity|] end.
Lemma base_tokens l g p : ly_spec l <> SPayload -> exists out, def_base l g (print_use p) = Ok out /\ tokens out = tokens (print_ltype (base_type l g (Some p))).
Proof.
  intro N.
  assert (exists q, q = print_use p) as (q & Q) by eauto.
  assert (forall k s, with_comma k (L "typename TOpt::" ++ s) = [(k, L "typename TOpt::" ++ s); (L "COMMA", L ",")]) as W by reflexivity.
  unfold def_base, base_type, has_messages, extra_opts, print_ltype, sync_options.
  generalize (gp_field g) (gp_opts g) (gp_custom g) (gp_esc g). intros f o c es.
  destruct (ly_spec l) as [| | |seek es0 vbr from|a nm from until vbr|ifs fn pseudo|sem from until] eqn:Es; [congruence|..]; cbn [lt_class lt_before lt_prev lt_after]; rewrite <- Q; clear Q.
  - rewrite W. cbn [app]. done 30%nat [(T "F", f); (T "P", q); (T "O", o)].
  - done 30%nat [(T "F", f); (T "P", q)].
  - destruct (gp_after g), seek, vbr; cbn [app genStrListToString]; unfold with_comma;
      match goal with |- context [is_nil ?x] => let b := eval cbn in (is_nil x) in change (is_nil x) with b end; cbn iota;
      done 30%nat [(T "F", f); (T "P", q); (T "E", es)].
  - destruct (alg_tokens a g) as (al & Ea & Ta). rewrite Ea. cbn [bind].
    assert (exists b, b = alg_text a g) as (b & B) by eauto. rewrite <- B in Ta |- *. clear B Ea.
    unfold with_comma. destruct vbr, until; cbn [is_nil];
      match goal with |- context [is_nil ?x] => let v := eval cbn in (is_nil x) in change (is_nil x) with v | _ => idtac end; cbn iota; cbn [join app]; fill 30%nat;
      exists out; (split; [reflexivity|]); rewrite Tt; clear E Tt;
      cbn [substituted]; look; same_holes2 [(T "A", al); (T "F", f); (T "P", q)] [(T "A", b); (T "F", f); (T "P", q)];
      intro k; cbn [lookup]; destruct (str_eqb _ _); (exact Ta || reflexivity).
  - unfold number_text. generalize (genNumToStringU (gp_idx g) 0). intro i. unfold with_comma. destruct pseudo; cbn [is_nil];
      match goal with |- context [is_nil ?x] => let b := eval cbn in (is_nil x) in change (is_nil x) with b | _ => idtac end; cbn iota;
      done 30%nat [(T "F", f); (T "P", q); (T "I", i)].
  - rewrite W. destruct sem; cbn [layer_kind_eqb]; done 30%nat [(T "F", f); (T "P", q); (T "O", o); (T "C", c)].
Qed.

(** ** Definitions *)
Definition cls (l : layer) : txt := genClassName (ly_name l).
Fixpoint aliases (rl : list (layer * gparts)) (use : option (txt * bool)) (has : bool) : list lalias :=
  match rl with
  | [] => []
  | (l, g) :: rl' => let h := has || has_messages l in
      mkAlias (gp_members g) (gp_doc g) h (cls l) (base_type l g use) :: aliases rl' (Some (cls l, h)) h
  end.
Lemma alias_tokens (m d c base : txt) (h : bool) t : tokens base = tokens (print_ltype t) -> exists out,
  genProcessTemplate def_templ ([(L "MEMBERS", m); (L "DOC", d); (L "CLASS_NAME", c); (L "BASE", base)] ++
         (if h then [(L "TEMPL_PARAMS", L "template <typename TMessage, typename TAllMessages>")] else [])) false = Ok out /\
  tokens out = tokens (print_alias (mkAlias m d h c t)).
Proof.
  intro Tb. destruct h; cbn [app]; unfold print_alias; cbn [la_members la_doc la_templ la_name la_type print_params];
    generalize dependent (print_ltype t); intros b Tb; fill 30%nat; exists out; (split; [reflexivity|]); rewrite Tt; clear E Tt;
    cbn [substituted]; look; same_holes2 [(T "M", m); (T "D", d); (T "C", c); (T "B", base)] [(T "M", m); (T "D", d); (T "C", c); (T "B", b)];
    intro k; cbn [lookup]; repeat (destruct (str_eqb _ _); [(exact Tb || reflexivity)|]); reflexivity.
Qed.
Lemma def_inner l g : ly_spec l = SPayload -> exists out, def_type l g None false = Ok (out, false) /\
  tokens out = tokens (print_alias (mkAlias (gp_members g) (gp_doc g) false (cls l) (base_type l g None))).
Proof.
  intro S. unfold def_type. destruct (payload_tokens l g [] S) as (b & E & Tb). rewrite E. cbn [bind].
  assert (has_messages l = false) as -> by (unfold has_messages; now rewrite S). cbn [orb].
  destruct (alias_tokens (gp_members g) (gp_doc g) (cls l) b false _ Tb) as (out & Eo & To). unfold cls in Eo. rewrite Eo. cbn [bind]. eauto.
Qed.
Lemma def_outer l g p has : ly_spec l <> SPayload -> exists out, def_type l g (Some p) has = Ok (out, has || has_messages l) /\
  tokens out = tokens (print_alias (mkAlias (gp_members g) (gp_doc g) (has || has_messages l) (cls l) (base_type l g (Some (cls p, has))))).
Proof.
  intro S. unfold def_type. destruct (base_tokens l g (cls p, has) S) as (b & E & Tb).
  change (if has then genClassName (ly_name p) ++ L "<TMessage, TAllMessages>" else genClassName (ly_name p)) with (print_use (cls p, has)).
  rewrite E. cbn [bind].
  destruct (alias_tokens (gp_members g) (gp_doc g) (cls l) b (has || has_messages l) _ Tb) as (out & Eo & To). unfold cls in Eo. rewrite Eo. cbn [bind]. eauto.
Qed.
Definition with_messages (rl : list (layer * gparts)) : bool := existsb (fun x => has_messages (fst x)) rl.
Lemma loop_outer rl : forall p has, Forall (fun x => ly_spec (fst x) <> SPayload) rl -> exists outs,
  defs_loop rl (Some p) has = Ok (outs, Some (last (map fst rl) p), has || with_messages rl) /\
  flat_map tokens outs = flat_map (fun a => tokens (print_alias a)) (aliases rl (Some (cls p, has)) has).
Proof.
  induction rl as [|[l g] rl IH]; intros p has F; cbn [defs_loop aliases].
  - exists []. cbn [with_messages existsb map last]. rewrite orb_false_r. split; reflexivity.
  - inversion F as [|? ? Sl Fr]; subst. cbn [fst] in Sl. destruct (def_outer l g p has Sl) as (t & E & Tt). rewrite E. cbn [bind].
    destruct (IH l (has || has_messages l) Fr) as (ts & El & Tl). rewrite El. cbn [bind]. exists (t :: ts). split.
    + unfold with_messages. cbn [existsb fst map]. rewrite orb_assoc.
      assert (forall d, last (l :: map fst rl) d = last (map fst rl) l) as -> by (intro d; clear; generalize l; induction (map fst rl) as [|b m IHm]; intro l0; [reflexivity|]; change (last (l0 :: b :: m) d) with (last (b :: m) d); change (last (b :: m) l0) with (match m with [] => b | _ => last m l0 end); rewrite IHm; destruct m as [|c m]; [reflexivity|]; clear; revert c; induction m as [|e m IHm]; intro c; [reflexivity|]; cbn [last] in *; apply IHm).
      reflexivity.
    + cbn [flat_map]. rewrite Tt, Tl. reflexivity.
Qed.
Definition top_text (c : txt) (has : bool) : txt :=
  T "/// @brief Final framing layers stack definition." ++ [newline] ++ print_params has ++ [newline] ++ T "using Stack = " ++ print_use (c, has) ++ T ";".
Lemma top_tokens c (has : bool) : exists out,
  genProcessTemplate stack_templ ([(L "LAST_LAYER", c)] ++
    (if has then [(L "STACK_PARAMS", L "template<typename TMessage, typename TAllMessages>"); (L "LAST_LAYER_PARAMS", L "<TMessage, TAllMessages>")] else [])) false = Ok out /\
  tokens out = tokens (top_text c has).
Proof.
  destruct has; cbn [app]; unfold top_text, print_use, print_params; cbn [fst snd];
    fill 30%nat; exists out; (split; [reflexivity|]); rewrite Tt; clear E Tt; cbn [substituted]; look; same_holes [(T "C", c)].
Qed.
Lemma tokens_newline b : tokens (newline :: b) = tokens b. Proof. reflexivity. Qed.
Lemma stack_tokens outer pl gpl : ly_spec pl = SPayload -> Forall (fun x => ly_spec (fst x) <> SPayload) outer ->
  let ls := outer ++ [(pl, gpl)] in let has := with_messages ls in
  exists out, layers_def ls = Ok out /\
    tokens out = tokens (print_stack (aliases (rev ls) None false) (cls (hd pl (map fst outer)), has)).
Proof.
  intros Sp F ls has. unfold layers_def. subst ls. assert (rev (outer ++ [(pl, gpl)]) = (pl, gpl) :: rev outer) as -> by (rewrite rev_app_distr; reflexivity). cbn [defs_loop].
  destruct (def_inner pl gpl Sp) as (t & E & Tt). rewrite E. cbn [bind].
  assert (Forall (fun x : layer * gparts => ly_spec (fst x) <> SPayload) (rev outer)) as Fr by now apply Forall_rev.
  destruct (loop_outer (rev outer) pl false Fr) as (outs & El & Tl). rewrite El. cbn [bind].
  assert (last (map fst (rev outer)) pl = hd pl (map fst outer)) as ->.
  { rewrite map_rev. destruct (map fst outer) as [|a r]; [reflexivity|]. cbn [rev hd]. apply last_last. }
  assert (false || with_messages (rev outer) = has) as ->.
  { subst has. unfold with_messages. cbn [orb]. rewrite existsb_app. cbn [existsb fst].
    assert (has_messages pl = false) as -> by (unfold has_messages; now rewrite Sp). rewrite !orb_false_r.
    destruct (existsb (fun x : layer * gparts => has_messages (fst x)) outer) eqn:B.
    - apply existsb_exists in B as (x & I & H). apply existsb_exists. exists x. rewrite <- in_rev. auto.
    - apply not_true_is_false. intro H. apply existsb_exists in H as (x & I & H). rewrite <- in_rev in I.
      assert (existsb (fun x : layer * gparts => has_messages (fst x)) outer = true) by (apply existsb_exists; eauto). congruence. }
  destruct (top_tokens (cls (hd pl (map fst outer))) has) as (s & Es & Ts). unfold cls in Es. rewrite Es. cbn [bind].
  eexists. split; [reflexivity|]. rewrite FactoryFacts.list_tokens. rewrite flat_map_app. cbn [aliases flat_map].
  assert (false || has_messages pl = false) as -> by (unfold has_messages; now rewrite Sp).
  unfold print_stack. cbn [snd].
  match goal with |- _ = tokens (?x ++ ?y ++ ?z) => change (x ++ y ++ z) with (x ++ y ++ top_text (cls (hd pl (map fst outer))) has) end.
  match goal with |- _ = tokens (join [newline] (map print_alias ?x) ++ [newline] ++ ?y) =>
    assert (tokens (join [newline] (map print_alias x) ++ [newline] ++ y) = flat_map (fun a => tokens (print_alias a)) x ++ tokens y) as -> end.
  { cbn [app]. rewrite tokens_r by reflexivity. rewrite tokens_newline, tokens_join.
    apply (f_equal (fun z => z ++ _)). generalize (mkAlias (gp_members gpl) (gp_doc gpl) false (cls pl) (base_type pl gpl None) :: aliases (rev outer) (Some (cls pl, false)) false).
    clear. intro x. induction x as [|a x IH]; [reflexivity|]. cbn [map flat_map]. now rewrite IH. }
  rewrite <- Ts. clear Ts Es. cbn [flat_map]. rewrite Tt, Tl. rewrite !app_nil_r. rewrite <- app_assoc. reflexivity.
Qed.
Lemma has_iff l : has_messages l = true <-> deals_with_messages l.
Proof.
  unfold has_messages, deals_with_messages. destruct (ly_spec l) as [| | | | | |sem from until]; try (split; [discriminate|intros [H|(? & ? & H)]; discriminate]).
  - split; auto.
  - destruct sem; cbn [layer_kind_eqb]; try (split; [discriminate|intros [H|(? & ? & H)]; discriminate]). split; eauto.
Qed.
Lemma with_iff rl : with_messages rl = true <-> List.Exists deals_with_messages (map fst rl).
Proof.
  unfold with_messages. rewrite existsb_exists, Exists_exists. split.
  - intros (x & I & H). exists (fst x). split; [now apply in_map|now apply has_iff].
  - intros (l & I & H). apply in_map_iff in I as (x & <- & I). exists x. split; [exact I|now apply has_iff].
Qed.
Lemma alias_names rl : forall u h, map la_name (aliases rl u h) = map (fun x => cls (fst x)) rl.
Proof. induction rl as [|[l g] rl IH]; intros u h; [reflexivity|]. cbn [aliases map la_name fst]. now rewrite IH. Qed.
Lemma alias_at rl : forall u h i d, nth_error (aliases rl u h) i = Some d -> exists x, nth_error rl i = Some x /\
  la_members d = gp_members (snd x) /\ la_doc d = gp_doc (snd x) /\ la_name d = cls (fst x) /\ la_templ d = h || with_messages (firstn (S i) rl).
Proof.
  induction rl as [|[l g] rl IH]; intros u h i d H; [destruct i; discriminate H|]. cbn [aliases] in H. destruct i as [|i]; cbn [nth_error] in *.
  - injection H as <-. exists (l, g). cbn [firstn with_messages existsb fst]. rewrite orb_false_r. repeat split.
  - apply IH in H as (x & E & M & D & N & Tm). exists x. repeat split; auto. rewrite Tm. rewrite <- orb_assoc. reflexivity.
Qed.
Lemma unfolds_more D use ts : unfolds D use ts -> forall A, unfolds (D ++ A) use ts.
Proof. intros []; intro A; rewrite <- app_assoc; cbn [app]; econstructor; eauto. Qed.
Lemma base_prev l g p : ly_spec l <> SPayload -> lt_prev (base_type l g p) = p.
Proof. intro N. unfold base_type. destruct (ly_spec l); try reflexivity. congruence. Qed.
Lemma unfolds_loop rl : forall D p h ts, Forall (fun x => ly_spec (fst x) <> SPayload) rl -> unfolds D (cls p, h) ts -> exists ts',
  unfolds (D ++ aliases rl (Some (cls p, h)) h) (cls (last (map fst rl) p), h || with_messages rl) (ts' ++ ts) /\ Forall2 is_class_of (rev rl) ts'.
Proof.
  induction rl as [|[l g] rl IH]; intros D p h ts F U.
  - exists []. cbn [aliases map last with_messages existsb app rev]. rewrite orb_false_r, app_nil_r. split; [exact U|constructor].
  - inversion F as [|? ? Sl Fr]; subst. cbn [fst] in Sl. cbn [aliases].
    set (d := mkAlias (gp_members g) (gp_doc g) (h || has_messages l) (cls l) (base_type l g (Some (cls p, h)))).
    assert (unfolds (D ++ [d]) (cls l, h || has_messages l) (la_type d :: ts)) as U'.
    { change (cls l, h || has_messages l) with (la_name d, la_templ d). eapply unfold_wraps; [|exact U]. apply (base_prev l g _ Sl). }
    destruct (IH _ _ _ _ Fr U') as (ts' & Uo & Fo). exists (ts' ++ [la_type d]). split.
    + rewrite <- app_assoc in Uo. cbn [app] in Uo. rewrite <- app_assoc. cbn [app].
      assert (with_messages ((l, g) :: rl) = has_messages l || with_messages rl) as -> by reflexivity. rewrite orb_assoc.
      assert (last (map fst ((l, g) :: rl)) p = last (map fst rl) l) as ->; [|exact Uo].
      clear. cbn [map fst]. generalize (map fst rl). intro m. revert l. induction m as [|b m IHm]; intro l; [reflexivity|].
      change (last (l :: b :: m) p) with (last (b :: m) p). rewrite IHm. destruct m as [|c m]; [reflexivity|]. clear. revert c. induction m as [|e m IHm]; intro c; [reflexivity|apply IHm].
    + cbn [rev]. apply Forall2_app; [exact Fo|]. constructor; [apply base_class|constructor].
Qed.
Lemma unfolds_stack outer pl gpl : ly_spec pl = SPayload -> Forall (fun x => ly_spec (fst x) <> SPayload) outer ->
  let ls := outer ++ [(pl, gpl)] in
  exists ts, unfolds (aliases (rev ls) None false) (cls (hd pl (map fst outer)), with_messages ls) ts /\ Forall2 is_class_of ls ts.
Proof.
  intros Sp F ls. subst ls. rewrite rev_app_distr. cbn [rev app aliases].
  assert (has_messages pl = false) as Hp by (unfold has_messages; now rewrite Sp). rewrite Hp. cbn [orb].
  set (d := mkAlias (gp_members gpl) (gp_doc gpl) false (cls pl) (base_type pl gpl None)).
  assert (unfolds [d] (cls pl, false) [la_type d]) as U.
  { change (cls pl, false) with (la_name d, la_templ d). change [d] with ([] ++ d :: []). apply unfold_innermost. cbn [la_type]. subst d. cbn [la_type]. unfold base_type. now rewrite Sp. }
  assert (Forall (fun x : layer * gparts => ly_spec (fst x) <> SPayload) (rev outer)) as Fr by now apply Forall_rev.
  destruct (unfolds_loop (rev outer) [d] pl false _ Fr U) as (ts & Uo & Fo). exists (ts ++ [la_type d]). rewrite rev_involutive in Fo. split.
  - cbn [app] in Uo.
    assert (last (map fst (rev outer)) pl = hd pl (map fst outer)) as El.
    { rewrite map_rev. destruct (map fst outer) as [|a r]; [reflexivity|]. cbn [rev hd]. apply last_last. }
    rewrite El in Uo. assert (with_messages (outer ++ [(pl, gpl)]) = false || with_messages (rev outer)) as ->; [|exact Uo].
    apply eq_iff_eq_true. cbn [orb]. rewrite !with_iff, map_app, Exists_app, map_rev. cbn [map fst]. rewrite !Exists_exists. split.
    + intros [(x & I & H)|(x & [<-|[]] & H)]; [exists x; rewrite <- in_rev; auto|]. apply has_iff in H. congruence.
    + intros (x & I & H). rewrite <- in_rev in I. left. eauto.
  - apply Forall2_app; [exact Fo|]. constructor; [apply base_class|constructor].
Qed.
(** the names stand for one stack only *)
Lemma unfolds_det defs : forall use ts ts', NoDup (map la_name defs) -> unfolds defs use ts -> unfolds defs use ts' -> ts = ts'.
Proof.
  assert (K : forall (n : nat) (defs : list lalias), (length defs <= n)%nat -> forall use ts ts', NoDup (map la_name defs) -> unfolds defs use ts -> unfolds defs use ts' -> ts = ts'); [|intros; eapply K; eauto].
  clear defs.
  induction n as [|n IH]; intros ds Ln use ts ts' Nd U U'.
  - destruct ds; [|cbn in Ln; lia]. inversion U as [b0 d0 a0 H E|b0 d0 a0 u0 t0 H K E]; destruct b0; discriminate E.
  - assert (Q : forall b d a b' d' a', b ++ d :: a = b' ++ d' :: a' -> NoDup (map la_name (b ++ d :: a)) -> la_name d = la_name d' -> b = b' /\ d = d').
    { clear. induction b as [|x b IHb]; intros d a [|y b'] d' a' E N El; cbn [app map] in *.
      - injection E as -> _. auto.
      - injection E as -> E. subst a. exfalso. inversion N as [|? ? Ni _]; subst. apply Ni. rewrite map_app. apply in_or_app. right. cbn. left. now rewrite El.
      - injection E as -> E. exfalso. inversion N as [|? ? Ni _]; subst. apply Ni. rewrite <- El, map_app. apply in_or_app. right. cbn. auto.
      - injection E as -> E. inversion N as [|? ? _ N']; subst. destruct (IHb _ _ _ _ _ E N' El) as [-> ->]. auto. }
    destruct U as [b d a H|b d a u t H K]; inversion U' as [b' d' a' H' E Eu Et|b' d' a' u' t' H' K' E Eu Et]; subst.
    + symmetry in E. destruct (Q _ _ _ _ _ _ E Nd ltac:(congruence)) as [_ ->]. reflexivity.
    + symmetry in E. destruct (Q _ _ _ _ _ _ E Nd ltac:(congruence)) as [_ ->]. congruence.
    + symmetry in E. destruct (Q _ _ _ _ _ _ E Nd ltac:(congruence)) as [_ ->]. congruence.
    + symmetry in E. destruct (Q _ _ _ _ _ _ E Nd ltac:(congruence)) as [-> ->]. assert (u = u') as <- by congruence.
      apply (f_equal (fun z => _ :: z)). eapply (IH b'); eauto.
      * rewrite app_length in Ln. cbn in Ln. lia.
      * rewrite map_app in Nd. clear - Nd. induction (map la_name b') as [|x m IHm]; [constructor|]. cbn in Nd. inversion Nd as [|? ? Ni N']; subst.
        constructor; [|auto]. intro I. apply Ni. apply in_or_app. auto.
Qed.
