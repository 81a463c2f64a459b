(** C68: aliases stand for fields that are there. *)
From Verif.Model Require Import Base Common Xml Units Field FieldCommon IntField EnumField SetField FloatField OptCond Composite Message Frame Protocol.
From Verif.Spec Require Import Texts Ints Versions IntSpec XmlSpec FieldSpec CondSpec RefSpec ProtocolSpec DslSpec AttrSpec AliasSpec Ex.
From Verif.Proofs Require Import BaseFacts CommonFacts IntInv XmlFacts FieldInv OwnFacts ProtocolFacts PlatFacts AttrFacts GroundFacts GroundMsg ExFacts AliasFacts.
From Verif.Props Require Import PRefs.
Local Open Scope string_scope.
Local Open Scope Z_scope.
Local Open Scope list_scope.

(** ** the aliases that are reported *)
(** Bundles, wherever they are: in another field, a message or an interface, or a copy of one. *)
Theorem C68_bundle : forall f c ms als vc, derived f -> part_of (FBundle c ms als vc) f -> proper_names als /\ Forall (has_target ms) als.
Proof. intros f c ms als vc H P. exact (all_part_of _ _ _ (derived_fine f H) P). Qed.
Print Assumptions C68_bundle.
Theorem C68_interface : forall i, accepted_iface i -> proper_names (if_aliases i) /\ Forall (has_target (if_fields i)) (if_aliases i).
Proof. exact iface_fine. Qed.
Print Assumptions C68_interface.
Theorem C68_message_names : forall m, accepted_message m -> proper_names (m_aliases m).
Proof. intros m H. apply (message_fine m H). Qed.
Print Assumptions C68_message_names.
(** Missing: aliases of inner fields ($a.b) in a message with reuse (refuted below). *)
Theorem C68_message_partial : forall me n m a, menv_ok me -> message_parse me n = Ok m -> In a (m_aliases m) ->
  plain (a_fieldName a) \/ supplied n (T "reuse") [] -> has_target (m_fields m) a.
Proof.
  intros me n m a (He & Hi & Hm & _) H A [P|R].
  - apply named_target. apply (message_fine m); [|exact A|exact P]. eapply am; eassumption.
  - apply message_parse_steps in H as [st _]. destruct (ms_aliases _ _ _ st) as (als & Ha & Hd).
    destruct (message_copied _ _ _ st He (fun s k E => message_fine k (Hm s k E)) als Ha) as (P & _ & _ & T).
    apply add_aliases_spec in Hd as [_ (own & E & _ & X & _)]; [|exact P]. rewrite E in A. specialize (T (not_reused _ _ _ st R)).
    rewrite Forall_forall in T, X. apply in_app_or in A as [A|A]; auto.
Qed.
Print Assumptions C68_message_partial.

(** ** which aliases these are *)
(** An element without reuse: those written in it, in this order, none of which has the name of a field. *)
Theorem C68_bundle_written : forall e x n c ms als vc, parse_field e x n = Ok (FBundle c ms als vc) -> supplied n (T "reuse") [] ->
  aliases_written e n als /\ apart ms als.
Proof.
  intros e x n c ms als vc H S. apply bundle_aliases in H as (old & als0 & R & O & _ & U).
  assert (E : als0 = []).
  { destruct O as [O|(c' & ms' & vc' & ->)]; [exact O|]. inversion R as [|t g S' G E]; subst. pose proof (supplied_det _ _ _ _ S S') as X. discriminate X. }
  subst als0. apply update_aliases_spec in U as [_ (own & -> & W & _ & A)]; [|apply proper_nil]. split; [exact W|exact A].
Qed.
Print Assumptions C68_bundle_written.
(** A bundle that reuses another one has those of its aliases that are names of members of the new one, in front of its own. *)
Theorem C68_bundle_reused : forall e x n c ms als vc t c' ms' als' vc', env_ok e -> parse_field e x n = Ok (FBundle c ms als vc) ->
  supplied n (T "reuse") [t] -> e_find e t = Some (FBundle c' ms' als' vc') -> available 3 (e_dsl e) -> supplied n (T "reuseAliases") [] ->
  exists kept own, als = kept ++ own /\ aliases_written e n own /\ apart ms own /\
    forall a, In a kept <-> In a als' /\ In (a_fieldName a) (map f_name ms).
Proof.
  intros e x n c ms als vc t c' ms' als' vc' [_ F] H S E A N. apply bundle_aliases in H as (old & als0 & R & O & K & U).
  assert (E' : old = Some (FBundle c' ms' als' vc')).
  { inversion R as [S' E0|t' g S' Hg E0]; subst; pose proof (supplied_det _ _ _ _ S S') as X; [discriminate X|]. injection X as <-. congruence. }
  specialize (K A N _ _ _ _ E'). subst als0. apply update_aliases_spec in U as [_ (own & -> & W & _ & P)].
  - exists (filter (target_exists ms) als'), own. split; [reflexivity|]. split; [exact W|]. split; [exact P|]. intros a. rewrite filter_In.
    split; intros [X Y]; (split; [exact X|]); [now apply target_exists_In|]. unfold target_exists. apply in_map_iff in Y as (f & Ef & If).
    destruct (find_named (a_fieldName a) ms) eqn:Z; [reflexivity|]. exfalso. clear - Ef If Z. induction ms as [|y l IH]; [destruct If|].
    cbn in Z. destruct (str_eqb (f_name y) (a_fieldName a)) eqn:Q; [discriminate|]. destruct If as [->|If]; [|now apply IH].
    rewrite Ef, str_eqb_refl in Q. discriminate.
  - apply (all_here _ _ (field_fine _ (F _ _ E))).
Qed.
Print Assumptions C68_bundle_reused.
Theorem C68_message_written : forall me n m, menv_ok me -> message_parse me n = Ok m -> supplied n (T "reuse") [] -> supplied n (T "copyFieldsFrom") [] ->
  aliases_written (me_env me) n (m_aliases m) /\ apart (m_fields m) (m_aliases m).
Proof.
  intros me n m (He & Hi & Hm & _) H R S. apply message_parse_steps in H as [st _]. destruct (ms_aliases _ _ _ st) as (als & Ha & Hd).
  destruct (message_copied _ _ _ st He (fun s k E => message_fine k (Hm s k E)) als Ha) as (P & _).
  assert (Z : als = []).
  { rewrite (not_reused _ _ _ st R) in Ha. pose proof (ms_copy _ _ _ st) as C. unfold message_copy in C. apply bind_Ok in C as (u & _ & C).
    assert (V : values_of (ms_p _ _ _ st) (L "copyFieldsFrom") = []).
    { eapply supplied_det; [|exact S]. apply message_supplied; [apply mem_str_In; reflexivity|discriminate|apply mem_str_nIn; reflexivity]. }
    rewrite find_values, V in C. cbn [hd_error] in C. injection C as _ C. rewrite <- C in Ha. apply copy_aliases_spec in Ha as [->|[(l & X & _)|(_ & ->)]]; [reflexivity|discriminate X|reflexivity]. }
  subst als. apply add_aliases_spec in Hd as [_ (own & -> & W & _ & A)]; [|apply proper_nil]. split; [exact W|exact A].
Qed.
Print Assumptions C68_message_written.
Theorem C68_interface_written : forall me n i, menv_ok me -> iface_parse me n = Ok i -> supplied n (T "reuse") [] -> supplied n (T "copyFieldsFrom") [] ->
  aliases_written (me_env me) n (if_aliases i) /\ apart (if_fields i) (if_aliases i).
Proof.
  intros me n i _ H R S. apply iface_parse_steps in H as [st _].
  assert (Z : is_als _ _ _ st = []).
  { destruct st as [p i0 fs1 src als0 Hp Hr Hc Hi Ha Hd]. cbn [is_als].
    assert (V : forall k, In k iface_props -> k <> [] -> supplied n k [] -> find_prop p k = None).
    { intros k K N X. rewrite find_values. replace (values_of p k) with (@nil txt); [reflexivity|]. eapply supplied_det; [exact X|]. eapply element_props_supplied; eassumption. }
    unfold iface_reuse in Hr. rewrite (V (L "reuse")) in Hr; [|apply mem_str_In; reflexivity|discriminate|exact R]. apply bind_Ok in Hr as (u & _ & Hr). injection Hr as <-.
    unfold iface_copy in Hc. rewrite (V (L "copyFieldsFrom")) in Hc; [|apply mem_str_In; reflexivity|discriminate|exact S]. apply bind_Ok in Hc as (u' & _ & Hc). injection Hc as <- <-.
    apply copy_aliases_spec in Ha as [->|[(l & X & _)|(_ & ->)]]; [reflexivity|discriminate X|reflexivity]. }
  pose proof (is_added _ _ _ st) as Hd. rewrite Z in Hd. apply add_aliases_spec in Hd as [_ (own & E & W & _ & A)]; [|apply proper_nil]. cbn [app] in E. rewrite E. split; [exact W|exact A].
Qed.
Print Assumptions C68_interface_written.

(** ** what is not checked *)
Lemma supplied_by n k vs : (if is_nil k then None else match parseChildrenAsProps n [k] true (parseNodeProps n) with Ok p => Some (values_of p k) | _ => None end) = Some vs ->
  supplied n k vs.
Proof.
  destruct k as [|c k]; [discriminate|]. cbn [is_nil]. destruct (parseChildrenAsProps n [c :: k] true (parseNodeProps n)) as [p| |] eqn:E; try discriminate. intros [= <-].
  eapply element_props_supplied; [exact E|discriminate|now left].
Qed.
Definition alias_el (name field : string) : node := el "alias" [("name", name); ("field", field)] [].
Arguments alias_el name%string_scope field%string_scope.
Definition members (l : list node) : node := el "members" [] l.
Definition inner (name : string) (ms : list node) : node := el "bundle" [("name", name)] ms.
Arguments inner name%string_scope ms.
(** a bundle with an alias of a member and an alias of a field inside a member *)
Definition abase : field := got_field (ex_global [] (bundle [] [members [int8 "a"; inner "in" [int8 "x"]]; alias_el "al" "$a"; alias_el "deep" "$in.x"])).
Definition areuse : field := got_field (ex_global [("B", abase)] (bundle [("reuse", "B")] [members [int8 "Al"]])).
Definition f_aliases (f : field) : list alias := match f with FBundle _ _ als _ => als | _ => [] end.

(** a reused alias may have the name of a member that is added *)
Theorem C68_apart_refuted : ~ (forall f c ms als vc, accepted f -> f = FBundle c ms als vc -> apart ms als).
Proof.
  intros H. assert (X : exists c ms als vc, areuse = FBundle c ms als vc /\ map a_name als = [T "al"] /\ nth_error (map f_name ms) 2 = Some (T "Al"))
    by (eexists _, _, _, _; vm_compute; repeat split).
  destruct X as (c & ms & als & vc & E & E1 & E2). assert (A : accepted areuse) by ex_acc. specialize (H areuse c ms als vc A E).
  destruct als as [|a [|]]; try discriminate E1. injection E1 as E1. apply nth_error_In in E2. apply in_map_iff in E2 as (f & E2 & I2).
  apply (H a f (or_introl eq_refl) I2). rewrite E1, E2. right. exists "a"%char, "A"%char, (T "l"). repeat split.
Qed.
Print Assumptions C68_apart_refuted.
(** an alias of an inner field is lost when the bundle is reused, although the field is still there *)
Theorem C68_reused_refuted : ~ (forall e x n c ms als vc t c' ms' als' vc' a, env_ok e -> parse_field e x n = Ok (FBundle c ms als vc) ->
  supplied n (T "reuse") [t] -> e_find e t = Some (FBundle c' ms' als' vc') -> available 3 (e_dsl e) -> supplied n (T "reuseAliases") [] ->
  In a als' -> has_target ms a -> In a als).
Proof.
  intros H. pose (n := bundle [("reuse", "B")] [members [int8 "Al"]]).
  assert (X : exists c ms als vc, parse_field (ex_fenv [("B", abase)]) global_ctx n = Ok (FBundle c ms als vc) /\ map a_name als = [T "al"] /\
     (exists ci mi ai vi y, nth_error ms 1 = Some (FBundle ci mi ai vi) /\ c_name ci = T "in" /\ nth_error mi 0 = Some y /\ f_name y = T "x"))
    by (eexists _, _, _, _; split; [vm_compute; reflexivity|]; split; [reflexivity|]; eexists _, _, _, _, _; repeat split).
  destruct X as (c & ms & als & vc & E & E1 & (ci & mi & ai & vi & y & Q1 & Q2 & Q3 & Q4)).
  assert (Y : exists c' ms' als' vc' a, abase = FBundle c' ms' als' vc' /\ nth_error als' 1 = Some a /\ a_name a = T "deep" /\ a_fieldName a = T "in.x")
    by (eexists _, _, _, _, _; vm_compute; repeat split).
  destruct Y as (c' & ms' & als' & vc' & a & F & F1 & F2 & F3).
  assert (I' : In a als).
  { apply (H (ex_fenv [("B", abase)]) global_ctx n c ms als vc (T "B") c' ms' als' vc' a); auto.
    - split; [apply ex_fenv_ok|]. apply ex_fenv_find. constructor; [|constructor]. cbn [snd]. ex_acc.
    - apply supplied_by. vm_compute. reflexivity.
    - rewrite <- F. reflexivity.
    - now left.
    - apply supplied_by. vm_compute. reflexivity.
    - eapply nth_error_In. exact F1.
    - exists y. rewrite F3. change (T "in.x") with (T "in" ++ "."%char :: T "x"). rewrite <- Q2. eapply rc_bundle; [eapply nth_error_In; exact Q1|].
      rewrite <- Q4. apply rc_here. eapply nth_error_In. exact Q3. }
  apply (in_map a_name) in I'. rewrite E1, F2 in I'. destruct I' as [I'|[]]. discriminate I'.
Qed.
Print Assumptions C68_reused_refuted.

Definition ex_menv (l : list (str * message)) : menv := mkMenv (ex_fenv []) (fun s => assoc s l) (fun _ => None) [] [].
Definition got_message (r : res message) : message := match r with Ok m => m | _ => empty_message end.
Definition message_el (name id : string) (attrs : list (string * string)) (l : list node) : node := el "message" (("name", name) :: ("id", id) :: attrs) l.
Arguments message_el name%string_scope id%string_scope attrs%string_scope l.
Lemma ex_menv_ok l : Forall (fun x => accepted_message (snd x)) l -> menv_ok (ex_menv l).
Proof.
  intros F. split; [split; [apply ex_fenv_ok|intros s g; discriminate]|]. split; [discriminate|]. split; [|constructor].
  intros s m H. cbn in H. apply assoc_In in H. rewrite Forall_forall in F. exact (F _ H).
Qed.
Lemma ex_message_ok l n : Forall (fun x => accepted_message (snd x)) l -> is_Ok (message_parse (ex_menv l) n) = true -> accepted_message (got_message (message_parse (ex_menv l) n)).
Proof.
  intros F H. destruct (message_parse (ex_menv l) n) as [m| |] eqn:E; try discriminate. cbn [got_message].
  destruct (ex_menv_ok l F) as (A & B & C & _). exact (am (ex_menv l) n m A B C E).
Qed.
Definition m1 : message := got_message (message_parse (ex_menv []) (message_el "M1" "1" [] [el "fields" [] [int8 "a"; inner "in" [int8 "x"]]; alias_el "al" "$a"; alias_el "deep" "$in.x"])).
(** the member the alias goes through is replaced, and the alias stays *)
Definition m2 : message := got_message (message_parse (ex_menv [(T "M1", m1)]) (message_el "M2" "2" [("reuse", "M1"); ("copyFieldsAliases", "true")] [el "replace" [] [inner "in" [int8 "y"]]])).
Lemma m1_ok : accepted_message m1.
Proof. apply ex_message_ok; [constructor|vm_compute; reflexivity]. Qed.
Lemma m2_ok : accepted_message m2.
Proof. apply ex_message_ok; [constructor; [exact m1_ok|constructor]|vm_compute; reflexivity]. Qed.
Theorem C68_message_target_refuted : ~ (forall m a, accepted_message m -> In a (m_aliases m) -> has_target (m_fields m) a).
Proof.
  intros H.
  assert (X : exists a f g c ms als vc y, nth_error (m_aliases m2) 1 = Some a /\ a_fieldName a = T "in.x" /\ m_fields m2 = [f; g] /\ f_name f = T "a" /\ f_kind f = KInt /\ g = FBundle c ms als vc /\
     c_name c = T "in" /\ ms = [y] /\ f_name y = T "y" /\ f_kind y = KInt) by (do 8 eexists; vm_compute; repeat split).
  destruct X as (a & f & g & c & ms & als & vc & y & E1 & E2 & E3 & E4 & E5 & E6 & E7 & E8 & E9 & E10).
  destruct (H m2 a m2_ok (nth_error_In _ _ E1)) as (h & R). rewrite E2, E3 in R.
  assert (Sp : forall n r, T "in.x" = n ++ "."%char :: r -> r = T "x").
  { intros n r E. destruct n as [|n1 [|n2 [|n3 [|n4 [|]]]]]; try discriminate E. now injection E as _ _ <-. }
  assert (Ny : forall ms' r, r = T "x" -> ms' = [y] -> reaches ms' r h -> False).
  { intros ms' r Er Em R'. destruct R' as [fs q I1|fs c0 ms0 als0 vc0 rest q I1 R0|fs c0 en ms0 vc0 rest q I1 R0]; rewrite Em in I1; destruct I1 as [I1|[]].
    - rewrite <- I1, E9 in Er. discriminate Er.
    - rewrite I1 in E10. discriminate E10.
    - rewrite I1 in E10. discriminate E10. }
  remember [f; g] as l eqn:Heql in R. remember (T "in.x") as path eqn:Heqpath in R. destruct R as [fs q I1|fs c0 ms0 als0 vc0 rest q I1 R0|fs c0 en ms0 vc0 rest q I1 R0]; rewrite Heql in I1; destruct I1 as [I1|[I1|[]]].
  - rewrite <- I1, E4 in Heqpath. discriminate Heqpath.
  - rewrite <- I1, E6 in Heqpath. unfold f_name in Heqpath. cbn in Heqpath. rewrite E7 in Heqpath. discriminate Heqpath.
  - rewrite I1 in E5. discriminate E5.
  - rewrite E6 in I1. injection I1 as _ I1 _ _. symmetry in Heqpath. apply Sp in Heqpath. apply (Ny ms0 rest Heqpath); [congruence|exact R0].
  - rewrite I1 in E5. discriminate E5.
  - rewrite E6 in I1. discriminate I1.
Qed.
Print Assumptions C68_message_target_refuted.

(** ** examples *)
Example C68_ex_bundle : accepted abase /\ map a_name (f_aliases abase) = [T "al"; T "deep"] /\ accepted areuse /\ map a_name (f_aliases areuse) = [T "al"].
Proof. split; [ex_acc|]. split; [vm_compute; reflexivity|]. split; [ex_acc|vm_compute; reflexivity]. Qed.
Example C68_ex_rejected :
  is_Ok (ex_global [] (bundle [] [members [int8 "a"]; alias_el "al" "$b"])) = false /\
  is_Ok (ex_global [] (bundle [] [members [int8 "a"]; alias_el "A" "$a"])) = false /\
  is_Ok (ex_global [] (bundle [] [members [int8 "a"]; alias_el "al" "$a"; alias_el "Al" "$a"])) = false /\
  is_Ok (ex_global [] (bundle [] [members [int8 "a"]; alias_el "al" "$a.b"])) = false /\
  is_Ok (ex_global [] (bundle [] [members [int8 "a"]; alias_el "al" "a"])) = false.
Proof. vm_compute. repeat split. Qed.
Example C68_ex_message : accepted_message m1 /\ map a_name (m_aliases m1) = [T "al"; T "deep"].
Proof. split; [exact m1_ok|vm_compute; reflexivity]. Qed.
