(** C34, C35, C38, C40: generator utilities. *)
From Coq Require Import Sorted ZifyBool.
From Verif.Model Require Import Base Common Field IntField GenUtil GenComms.
From Verif.Spec Require Import Texts Ints Versions GenSpec.
From Verif.Proofs Require Import BaseFacts CommonFacts RangeFacts PlatFacts GenFacts.
Local Open Scope string_scope. Local Open Scope Z_scope. Local Open Scope list_scope.

(** ** C34: presence of generated elements *)

(** the schema version the code is generated for *)
Definition supported (g : gen_versions) (r : Z) : Prop := gv_min_remote g <= r <= genSchemaVersion g.
(** the version is the one asked for (--force-ver) or the one of the schema *)
Theorem C34_schema_version : forall g dsl, genPrepare_versions g dsl = Ok tt ->
  match gv_forced g with
  | None => genSchemaVersion g = gv_parsed g
  | Some v => 0 <= v < 2 ^ 31 -> genSchemaVersion g = v /\ v <= gv_parsed g
  end.
Proof.
  intros [p f m] dsl H. unfold genPrepare_versions, genSchemaVersion, forced_version, to_int in *. cbn in *.
  destruct f as [v|]; [|reflexivity]. intro Hv.
  destruct (dsl <=? max_dsl_version); [|discriminate]. cbn in H.
  replace (2147483648 <=? v) with false in * by lia.
  replace (0 <=? v) with true in * by lia. cbn in H. destruct (p <? v) eqn:E; [discriminate|]. lia.
Qed.
Print Assumptions C34_schema_version.
Theorem C34_exists : forall g since depr removed, gv_min_remote g <= genSchemaVersion g -> since < depr ->
  (genDoesElementExist g since depr removed = true <-> exists r, supported g r /\ present_at since depr removed r).
Proof.
  intros g since depr removed Hm Hsd. unfold genDoesElementExist, supported, present_at. split.
  - destruct (genSchemaVersion g <? since) eqn:E1; [discriminate|].
    destruct removed; cbn [andb]; [|intros _; exists (genSchemaVersion g); split; [lia|split; [lia|discriminate]]].
    destruct (depr <=? gv_min_remote g) eqn:E2; [discriminate|]. intros _.
    exists (Z.max (gv_min_remote g) since). lia.
  - intros (r & Hr & H1 & H2). replace (genSchemaVersion g <? since) with false by lia.
    destruct removed; [|reflexivity]. specialize (H2 eq_refl). now replace (depr <=? gv_min_remote g) with false by lia.
Qed.
Print Assumptions C34_exists.
(** for an element whose versions the parser accepted (C07) the generated
    code treats it as optional exactly if some supported peer lacks it *)
Theorem C34_optional : forall g since depr removed,
  gv_forced g = None -> gv_min_remote g <= gv_parsed g < never -> consistent_versions (gv_parsed g) 0 never since depr ->
  (genIsElementOptional g since depr removed = true <-> exists r, supported g r /\ ~ present_at since depr removed r).
Proof.
  intros [p f m] since depr removed Hf Hm (C1 & C2 & C3 & C4 & C5). cbn in *. subst f.
  unfold genIsElementOptional, supported, present_at, genSchemaVersion, never in *. cbn in *. split.
  - destruct (m <? since) eqn:E1; [intros _; exists m; split; [lia|intros [H _]; lia]|].
    destruct removed; cbn [andb]; [|discriminate]. destruct (depr <? 4294967295) eqn:E2; [|discriminate].
    intros _. exists p. split; [lia|]. intros [_ H]. specialize (H eq_refl). lia.
  - intros (r & Hr & N). destruct (m <? since) eqn:E1; [reflexivity|]. destruct removed; cbn [andb].
    + destruct (depr <? 4294967295) eqn:E2; [reflexivity|]. exfalso. apply N. split; [lia|]. intros _. lia.
    + exfalso. apply N. split; [lia|discriminate].
Qed.
Print Assumptions C34_optional.
(** with --force-ver an element which every supported version has is still optional *)
Theorem C34_optional_refuted : exists g since depr,
  gv_min_remote g <= genSchemaVersion g /\ genPrepare_versions g 1 = Ok tt /\ consistent_versions (gv_parsed g) 0 never since depr /\
  genIsElementOptional g since depr true = true /\ forall r, supported g r -> present_at since depr true r.
Proof.
  exists (mkGV 5 (Some 2) 1), 0, 4. split; [vm_compute; discriminate|]. split; [reflexivity|].
  split; [repeat split; vm_compute; auto; try discriminate; right; discriminate|]. split; [reflexivity|].
  unfold supported, present_at, genSchemaVersion. cbn. lia.
Qed.
Print Assumptions C34_optional_refuted.
(** a version of 2^31 or more given with --force-ver is ignored without an error *)
Theorem C34_force_refuted : exists g v, gv_forced g = Some v /\ gv_parsed g < v < 2 ^ 32 /\
  genPrepare_versions g 1 = Ok tt /\ genSchemaVersion g = gv_parsed g.
Proof. exists (mkGV 5 (Some 4294967295) 0), 4294967295. vm_compute. repeat split; discriminate || reflexivity. Qed.
Print Assumptions C34_force_refuted.
Example C34_example : genDoesElementExist (mkGV 5 None 2) 1 3 true = true /\ genIsElementOptional (mkGV 5 None 2) 1 3 true = true /\
  genDoesElementExist (mkGV 5 None 3) 1 3 true = false /\ genIsElementOptional (mkGV 5 None 2) 1 3 false = false /\
  consistent_versions 5 0 never 1 3.
Proof. repeat split; try reflexivity; vm_compute; try discriminate. now right. Qed.

(** a member field gets the version condition of the generated code only if it
    is missing in some version its message has *)
Theorem C34_member_optional : forall g dependent f parents,
  genIsVersionOptionalField g dependent (f :: parents) = true ->
  dependent = true /\ ve_type f = EField /\
  ((genSinceVersionOf parents < ve_since f /\
    (gv_min_remote g < ve_since f \/ (ve_removed f = true /\ ve_depr f < never))) \/
   (ve_removed f = true /\ ve_depr f < never)).
Proof.
  intros g d f parents. unfold genIsVersionOptionalField, genIsElementOptional, never.
  destruct (ve_type f); try discriminate. destruct d; [|discriminate]. cbn [negb]. intro H.
  split; [reflexivity|]. split; [reflexivity|].
  destruct (gv_min_remote g <? ve_since f) eqn:E1, (ve_removed f && (ve_depr f <? 4294967295)) eqn:E2, (genSinceVersionOf parents <? ve_since f) eqn:E3;
    cbn in H; try discriminate; destruct (ve_removed f) eqn:E4, (ve_depr f <? 4294967295) eqn:E5; cbn in *; try discriminate; try lia;
    (left; split; [lia|]; left; lia) || (right; split; [reflexivity|lia]) || (left; split; [lia|right; split; [reflexivity|lia]]).
Qed.
Print Assumptions C34_member_optional.

(** the fields around an element and the message they are in *)
Fixpoint enclosing (p : list velem) : list velem :=
  match p with
  | [] => []
  | e :: p' => match ve_type e with EField => e :: enclosing p' | EMessage => [e] | _ => [] end
  end.
(** the version an element is compared with is the one from which on all those around it exist *)
Theorem C34_parents_exist : forall parents v, 0 <= v ->
  (genSinceVersionOf parents <= v <-> Forall (fun e => ve_since e <= v) (enclosing parents)).
Proof.
  intros parents v V. induction parents as [|e p IH]; cbn [genSinceVersionOf enclosing]; [split; [constructor|lia]|].
  destruct (ve_type e).
  all: try (split; [constructor|lia]).
  - split; [intro; repeat constructor; lia|]. intro F. now inversion F.
  - split; [intro; constructor; [lia|apply IH; lia]|]. intro F. inversion F as [|? ? F1 F2]; subst. apply IH in F2. lia.
Qed.
Print Assumptions C34_parents_exist.
(** exactly the fields which are missing in a supported version get the condition: those
    introduced later than all that is around them, or removed at some time *)
Theorem C34_member_optional_iff : forall g f parents, ve_type f = EField -> 0 <= gv_min_remote g -> 0 <= ve_since f ->
  (genIsVersionOptionalField g true (f :: parents) = true <->
   (ve_removed f = true /\ ve_depr f < never) \/
   (exists v, gv_min_remote g <= v < ve_since f /\ Forall (fun e => ve_since e <= v) (enclosing parents))).
Proof.
  intros g f parents Hf Hm Hs. unfold genIsVersionOptionalField, genIsElementOptional, never. rewrite Hf. cbn [negb].
  assert (X : (exists v, gv_min_remote g <= v < ve_since f /\ Forall (fun e => ve_since e <= v) (enclosing parents)) <->
     gv_min_remote g < ve_since f /\ genSinceVersionOf parents < ve_since f).
  { split.
    - intros (v & V & F). rewrite <- (C34_parents_exist parents v) in F by lia. lia.
    - intros [A B]. exists (ve_since f - 1). split; [lia|]. apply C34_parents_exist; lia. }
  rewrite X. clear X.
  destruct (gv_min_remote g <? ve_since f) eqn:E1, (ve_removed f) eqn:E4, (ve_depr f <? 4294967295) eqn:E5, (genSinceVersionOf parents <? ve_since f) eqn:E3; cbn; 
    (split; intro; [try discriminate|]); try reflexivity; try lia.
  all: try (left; split; [reflexivity|lia]). all: try (right; lia).
Qed.
Print Assumptions C34_member_optional_iff.
Example C34_member_ex : genIsVersionOptionalField (mkGV 5 None 1) true [mkVE EField 3 never false; mkVE EField 2 never false; mkVE EMessage 1 never false] = true /\
  genIsVersionOptionalField (mkGV 5 None 1) true [mkVE EField 2 never false; mkVE EField 2 never false; mkVE EMessage 1 never false] = false.
Proof. vm_compute. auto. Qed.

(** ** C35: number literals *)
Theorem C35_unsigned : forall v width, 0 <= v < 2 ^ 64 -> 0 <= width -> constant (genNumToStringU v width) v.
Proof. intros v w Hv Hw. apply constant_unsigned; [exact Hv|exact Hw]. Qed.
Print Assumptions C35_unsigned.
Theorem C35_signed : forall v, - 2 ^ 63 < v < 2 ^ 63 -> exists s, genNumToStringS v = Ok s /\ constant s v.
Proof.
  intros v Hv. change (- 2 ^ 63) with int_min in Hv. change (2 ^ 63) with 9223372036854775808 in Hv. unfold genNumToStringS.
  destruct ((-2147483648 <=? v) && (v <=? 2147483647)) eqn:E1.
  { eexists. split; [reflexivity|]. apply constant_signed_dec. lia. }
  destruct (0 <? v) eqn:E2.
  { eexists. split; [reflexivity|]. eapply const_lit, cpp_hex; [apply hex_str_spec; unfold two64; lia|right; right; left; now split|].
    apply first_here. unfold ctype_holds. cbn. lia. }
  rewrite s64_ok by (unfold int_min, int_max in *; lia). eexists. split; [reflexivity|]. apply constant_neg_hex. unfold int_min in *; lia.
Qed.
Print Assumptions C35_signed.
(** the smallest 64 bit number *)
Theorem C35_smallest_refuted : genNumToStringS (- 2 ^ 63) = UB /\ genNumToStringWithHexComment (- 2 ^ 63) = UB.
Proof. split; reflexivity. Qed.
Print Assumptions C35_smallest_refuted.
Theorem C35_with_comment : forall v, - 2 ^ 63 < v < 2 ^ 63 ->
  exists s, genNumToStringWithHexComment v = Ok s /\ constant_with_comment s v.
Proof.
  intros v Hv. change (- 2 ^ 63) with int_min in Hv. change (2 ^ 63) with 9223372036854775808 in Hv. unfold genNumToStringWithHexComment.
  assert (exists h, (if 0 <=? v then Ok (L "0x" ++ hex_str false v) else m <- s64 (- v) ;; Ok (L "-0x" ++ hex_str false m)) = Ok h /\
          ~ In "*"%char h /\ (v < 0 -> h = L "-0x" ++ hex_str false (- v))) as (h & -> & NS & Hh).
  { destruct (0 <=? v) eqn:E.
    - eexists. split; [reflexivity|]. split; [|lia]. rewrite in_app_iff. intros [I|I].
      + cbn in I. intuition discriminate.
      + revert I. apply hex_no_star. unfold two64; lia.
    - rewrite s64_ok by (unfold int_min, int_max in *; lia). eexists. split; [reflexivity|]. split; [|auto].
      rewrite in_app_iff. intros [I|I].
      + cbn in I. intuition discriminate.
      + revert I. apply hex_no_star. unfold two64, int_min in *; lia. }
  cbn [bind]. destruct ((-2147483648 <=? v) && (v <=? 2147483647)) eqn:E1.
  { destruct (C35_signed v Hv) as (s & -> & C). eexists. split; [reflexivity|]. right.
    exists s, h. split; [reflexivity|]. split; assumption. }
  destruct (v <? 0) eqn:E2.
  { eexists. split; [reflexivity|]. left. rewrite Hh by lia. rewrite <- app_assoc. apply constant_neg_hex. unfold int_min in *; lia. }
  assert (to_u64 v = v) as -> by (unfold to_u64; apply Z.mod_small; unfold two64; lia).
  destruct (v <=? 4294967295) eqn:E3.
  { eexists. split; [reflexivity|]. right. exists (genNumToStringU v 0), h. split; [reflexivity|]. split; [|exact NS].
    apply constant_unsigned; [unfold two64; lia|lia]. }
  eexists. split; [reflexivity|]. left. apply constant_unsigned; [unfold two64; lia|lia].
Qed.
Print Assumptions C35_with_comment.
(** a text denotes at most one number, so the literals of different numbers differ *)
Theorem C35_distinct : forall v w width, 0 <= v < 2 ^ 64 -> 0 <= w < 2 ^ 64 -> 0 <= width ->
  genNumToStringU v width = genNumToStringU w width -> v = w.
Proof.
  intros v w k Hv Hw Hk E. apply (constant_det (genNumToStringU v k)); [now apply C35_unsigned|].
  rewrite E. now apply C35_unsigned.
Qed.
Print Assumptions C35_distinct.
Example C35_example :
  genNumToStringU 65536 0 = T "65536U" /\ genNumToStringU 10 4 = T "0x000A" /\ genNumToStringU (2 ^ 64 - 1) 0 = T "0xFFFFFFFFFFFFFFFFULL" /\
  genNumToStringS (-2147483648) = Ok (T "-2147483648") /\ genNumToStringS (-2147483649) = Ok (T "-0x80000001LL") /\
  genNumToStringWithHexComment 4294967295 = Ok (T "4294967295U /* 0xffffffff */").
Proof. repeat split; vm_compute; reflexivity. Qed.

(** ** C38: include statements *)
Theorem C38_complete : forall l line, In line (genPrepareIncludeStatement l) <-> exists h, In h l /\ line = include_line h.
Proof.
  intros l line. unfold genPrepareIncludeStatement. rewrite in_map_iff. split.
  - intros (h & <- & I). rewrite unique_In, sort_In in I. eauto.
  - intros (h & I & ->). exists h. split; [reflexivity|]. now rewrite unique_In, sort_In.
Qed.
Print Assumptions C38_complete.
(** what stands in a line for a header *)
Theorem C38_lines : forall h,
  include_line h =
  match h with
  | [] => []
  | c :: _ => if Ascii.eqb c "#" then h else if Ascii.eqb c "<" then T "#include " ++ h else T "#include """ ++ h ++ T """"
  end.
Proof. intros [|c h]; reflexivity. Qed.
Print Assumptions C38_lines.
(** each header once, in alphabetical order, unless a ready-made line ("#...") is mixed in *)
Theorem C38_once : forall l, (forall h r, In h l -> h <> "#"%char :: r) ->
  NoDup (genPrepareIncludeStatement l) /\
  exists hs, genPrepareIncludeStatement l = map include_line hs /\ StronglySorted (fun a b => str_ltb a b = true) hs /\
             (forall h, In h hs <-> In h l).
Proof.
  intros l Hl. unfold genPrepareIncludeStatement.
  pose proof (unique_sorted _ (str_sort_sorted l)) as S.
  assert (forall h, In h (unique (isort str_ltb l)) <-> In h l) as I.
  { intro h. rewrite unique_In. apply sort_In. }
  split; [|eauto]. apply sorted_NoDup in S. revert S I. generalize (unique (isort str_ltb l)) as u. intros u N I.
  assert (forall h r, In h u -> h <> "#"%char :: r) as Hu by (intros h r Ih; apply Hl, I, Ih). clear I Hl l.
  induction N as [|x u Nx N IH]; [constructor|]. cbn [map]. constructor.
  - rewrite in_map_iff. intros (y & E & Iy). apply Nx. replace x with y; [exact Iy|].
    assert (forall z, In z (x :: u) -> include_line z = [] /\ z = [] \/ (exists r, z = "<"%char :: r /\ include_line z = T "#include <" ++ r) \/
                      (z <> [] /\ include_line z = T "#include """ ++ z ++ T """")) as C.
    { intros z Iz. destruct z as [|c z]; [left; now split|right]. unfold include_line.
      destruct (ch_eqb c "#") eqn:E1; [apply ch_eqb_eq in E1 as ->; exfalso; eapply Hu; eauto|].
      destruct (ch_eqb c "<") eqn:E2; [apply ch_eqb_eq in E2 as ->; left; eauto|right; split; [discriminate|reflexivity]]. }
    destruct (C x ltac:(now left)) as [[Ex ->]|[(r & -> & Ex)|[Hx Ex]]], (C y ltac:(now right)) as [[Ey ->]|[(r' & -> & Ey)|[Hy Ey]]];
      rewrite ?Ex, ?Ey in E; cbn in E; try discriminate; try reflexivity.
    + injection E as ->. reflexivity.
    + injection E as E. now apply app_inv_tail in E.
  - apply IH. intros h r Ih. apply Hu. now right.
Qed.
Print Assumptions C38_once.
Theorem C38_once_refuted : exists l, NoDup l /\ ~ NoDup (genPrepareIncludeStatement l).
Proof.
  exists [T "a.h"; T "#include ""a.h"""]. split.
  - repeat constructor; cbn; intuition discriminate.
  - vm_compute. intro H. inversion H as [|? ? N _]. apply N. now left.
Qed.
Print Assumptions C38_once_refuted.
Example C38_example : genPrepareIncludeStatement [T "b.h"; T "<a>"; T "b.h"; T "a.h"] =
  [T "#include <a>"; T "#include ""a.h"""; T "#include ""b.h"""].
Proof. vm_compute. reflexivity. Qed.

(** ** C40: splitting and replacing *)
Theorem C40_split : forall s sep, sep <> [] ->
  exists ts, genStrSplit s sep false = Ok ts /\ Forall (fun t => ~ occurs sep t) ts /\
             (join sep ts = s \/ join sep ts ++ sep = s).
Proof.
  intros s sep Hs. destruct (pieces_total sep Hs (S (length s)) s) as [ps P]; [lia|].
  exists (drop_last_empty ps). split; [now apply split_spec|]. split.
  - pose proof (pieces_free _ _ _ Hs P) as F. rewrite Forall_forall in *. intros t I. apply F. now apply drop_last_In.
  - pose proof (pieces_join _ _ _ P) as J. destruct (list_eq_dec (list_eq_dec ascii_dec) ps [[]]) as [->|N].
    + left. exact J.
    + destruct (drop_last_join sep ps (pieces_nonnil _ _ _ P) N) as [E|E]; rewrite J in E; auto.
Qed.
Print Assumptions C40_split.
(** an empty last token is not reported *)
Theorem C40_join_refuted : exists s sep ts, sep <> [] /\ genStrSplit s sep false = Ok ts /\ join sep ts <> s.
Proof. exists (T "a,"), (T ","), [T "a"]. repeat split; discriminate. Qed.
Print Assumptions C40_join_refuted.
(** compressed: the non-empty tokens, in order *)
Theorem C40_compressed : forall s sep ps, sep <> [] -> pieces sep s ps ->
  genStrSplit s sep true = Ok (filter not_empty ps).
Proof. intros s sep ps H P. apply split_loop_compressed; auto. Qed.
Print Assumptions C40_compressed.
(** replacing: what stood between the occurrences, joined by the replacement *)
Theorem C40_replace : forall s what with_, what <> [] ->
  exists ps, pieces what s ps /\ join what ps = s /\ Forall (fun p => ~ occurs what p) ps /\
             genStrReplace s what with_ = Ok (join with_ ps).
Proof.
  intros s w r H. destruct (replace_total w r s H) as (ps & P & E). exists ps.
  split; [exact P|]. split; [eapply pieces_join; eauto|]. split; [eapply pieces_free; eauto|exact E].
Qed.
Print Assumptions C40_replace.
Theorem C40_pieces_unique : forall s what ps qs, what <> [] -> pieces what s ps -> pieces what s qs -> ps = qs.
Proof. intros. eapply pieces_det; eauto. Qed.
Print Assumptions C40_pieces_unique.
(** an empty separator makes the loop endless *)
Theorem C40_empty_separator_refuted : exists s c, genStrSplit s [] c = UB.
Proof. exists (T "a"), false. reflexivity. Qed.
Print Assumptions C40_empty_separator_refuted.
Example C40_example : genStrSplit (T "a::b::::c") (T "::") false = Ok [T "a"; T "b"; []; T "c"] /\
  genStrSplit (T "::a::::c::") (T "::") true = Ok [T "a"; T "c"] /\ genStrReplace (T "aaa") (T "aa") (T "b") = Ok (T "ba").
Proof. repeat split; vm_compute; reflexivity. Qed.
