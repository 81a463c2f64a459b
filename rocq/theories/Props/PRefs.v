(** C23: conditions and detached prefixes refer to fields that are there. *)
From Verif.Model Require Import Base Common Xml Units Field FieldCommon IntField EnumField SetField FloatField OptCond Composite Message Frame Protocol.
From Verif.Spec Require Import Texts Ints Versions IntSpec EnumSpec XmlSpec FieldSpec CondSpec RefSpec ProtocolSpec Ex.
From Verif.Proofs Require Import BaseFacts CommonFacts XmlFacts FieldInv OwnFacts ProtocolFacts PlatFacts GroundFacts GroundMsg ExFacts.
Local Open Scope string_scope.
Local Open Scope Z_scope.
Local Open Scope list_scope.

(** In an accepted field element with no reuse, each optional member of a bundle has a condition about members before
    it, each detached length or count is in an integer or length member before it, and a validCond is about members. *)
Theorem C23_fields_partial : forall e x n f g, env_ok e -> without_reuse n -> parse_field e x n = Ok f -> inside g f -> sound_field e g.
Proof. intros e x n f g [Ne Fe] W H Hg. eapply own_sound; eassumption. Qed.
Print Assumptions C23_fields_partial.

(** Messages: read and construct conditions are about interface fields only, the valid condition about its fields. *)
Theorem C23_message_conditions_partial : forall me n m, menv_ok me -> message_parse me n = Ok m -> supplied n (T "reuse") [] ->
  (forall c, m_construct m = Some c -> grounded (me_env me) [] c) /\
  (forall c, m_readCond m = Some c -> grounded (me_env me) [] c) /\
  (forall c, m_validCond m = Some c -> grounded (me_env me) (m_fields m) c).
Proof. exact message_conds_grounded. Qed.
Print Assumptions C23_message_conditions_partial.
Theorem C23_construct : forall me n m c, menv_ok me -> message_parse me n = Ok m -> m_construct m = Some c -> constructible c.
Proof. intros me n m c M H. apply (message_constructible _ _ _ M H). Qed.
Print Assumptions C23_construct.
Theorem C23_message_fields_partial : forall me n m, menv_ok me -> message_parse me n = Ok m -> without_reuse n -> supplied n (T "copyFieldsFrom") [] ->
  sound_members (me_env me) (m_fields m) /\ forall f g, In f (m_fields m) -> inside g f -> sound_field (me_env me) g.
Proof.
  intros me n m (He & _) H W S.
  assert (R : supplied n (T "reuse") []).
  { pose proof H as H'. apply message_parse_steps in H' as [st _]. pose proof (message_reuse_supplied _ _ _ st) as R.
    rewrite (without_reuse_supplied _ _ W R) in R. exact R. }
  destruct (message_own_fields _ _ _ H R S) as [E|(ns & Hn & Ha)].
  - rewrite E. split; [apply sound_nil|intros f g []].
  - eapply fields_all_sound; eassumption.
Qed.
Print Assumptions C23_message_fields_partial.
Theorem C23_interface_partial : forall me n i, menv_ok me -> iface_parse me n = Ok i -> without_reuse n -> supplied n (T "copyFieldsFrom") [] ->
  sound_members (me_env me) (if_fields i) /\ forall f g, In f (if_fields i) -> inside g f -> sound_field (me_env me) g.
Proof.
  intros me n i (He & _) H W S. destruct (iface_own_fields _ _ _ H W S) as [E|(ns & Hn & Ha)].
  - rewrite E. split; [apply sound_nil|intros f g []].
  - eapply fields_all_sound; eassumption.
Qed.
Print Assumptions C23_interface_partial.
(** what % stands for, while the files of a protocol are read: a field of an interface of the schema *)
Theorem C23_interface_operands : forall s text g t, in_interfaces (env_of s) text g t ->
  exists path i, iface_at (cur_schema s) path i /\ among (if_fields i) text g t.
Proof. exact iface_operand_at. Qed.
Print Assumptions C23_interface_operands.

(** ** what is not checked *)
Definition int8 (name : string) : node := el "int" [("name", name); ("type", "uint8")] [].
Definition opt (name cond : string) : node := el "optional" [("name", name); ("cond", cond)] [int8 name].
Definition bundle (attrs : list (string * string)) (ms : list node) : node := el "bundle" (("name", "B") :: attrs) ms.
Arguments int8 name%string_scope.
Arguments opt name%string_scope cond%string_scope.
Arguments bundle attrs%string_scope ms.
Definition set8 : node := el "set" [("name", "s"); ("length", "1")] [el "bit" [("name", "up"); ("idx", "0")] []].

Lemma among_plain ms c text g t : among ms (c :: text) g t -> c <> "#"%char -> c <> "?"%char ->
  exists m rest, In m ms /\ step (c :: text) (f_name m) rest /\ within m rest g t.
Proof. intros H N1 N2. inversion H; subst; [|contradiction..]. eexists _, _. eauto. Qed.
Lemma step_plain text first rest : step text first rest -> ~ In "."%char text -> first = text /\ rest = [].
Proof. intros [N [[-> ->]|E]] X; [auto|]. exfalso. apply X. rewrite E. apply in_or_app. right. left. reflexivity. Qed.
Ltac no_dot := let X := fresh in intros X; cbn in X; repeat (destruct X as [X|X]; [discriminate X|]); exact X.
Lemma operand_sibling e sibs text g t : operand_is e sibs ("$"%char :: text) g t -> among sibs text g t.
Proof. intros (u & [[E H]|[E H]]); [injection E as <-; exact H|discriminate E]. Qed.
(** a condition about a member that is not there holds of nothing *)
Lemma absent_not_grounded e sibs op r c text : (forall m, In m sibs -> f_name m <> c :: text) -> ~ In "."%char (c :: text) -> c <> "#"%char -> c <> "?"%char ->
  ~ grounded e sibs (CExpr ("$"%char :: c :: text) op r).
Proof.
  intros N D C1 C2 G. assert (X : exists g t, operand_is e sibs ("$"%char :: c :: text) g t) by (inversion G; subst; eauto).
  destruct X as (g & t & X). apply operand_sibling in X. apply among_plain in X as (m & rest & I1 & S & _); [|assumption..].
  apply step_plain in S as [S _]; [|exact D]. exact (N _ I1 S).
Qed.
(** the members of a bundle as [f_members] and its condition as [f_valid_cond] *)
Definition base1 : field := got_field (ex_global [] (bundle [("validCond", "$a >= 1")] [int8 "a"; int8 "b"])).
Definition reused1 : field := got_field (ex_global [("B", base1)] (bundle [("reuse", "B")] [el "replace" [] [el "data" [("name", "a")] []]])).
Theorem C23_reused_condition_refuted : ~ (forall f d, accepted f -> f_valid_cond f = Some d -> exists e, grounded e (f_members f) d).
Proof.
  intros H. destruct (H reused1 (CExpr (T "$a") (T ">=") (T "1"))) as (e & G).
  - ex_acc.
  - vm_compute. reflexivity.
  - assert (M : exists m b, f_members reused1 = [m; b] /\ f_kind m = KData /\ c_sem (f_common m) = SemNone /\ f_name m = T "a" /\ f_name b = T "b")
      by (eexists _, _; do 4 (split; [vm_compute; reflexivity|]); vm_compute; reflexivity).
    destruct M as (m & b & M & K & Se & Na & Nb). rewrite M in G. clear M H.
    assert (X : forall g t, operand_is e [m; b] (T "$a") g t -> g = m).
    { intros g t O. apply operand_sibling in O. apply among_plain in O as (m' & rest & I1 & S & Wt); [|discriminate..].
      apply step_plain in S as [S ->]; [|no_dot]. destruct I1 as [<-|[<-|[]]]; [|rewrite Nb in S; discriminate].
      destruct m; try discriminate K. inversion Wt; subst; [reflexivity|cbn in *; contradiction|]. cbn in *.
      match goal with A : among [] [] _ _ |- _ => inversion A; subst; contradiction end. }
    inversion G; subst; try discriminate.
    + match goal with O : operand_is _ _ _ _ TheSize |- _ => pose proof (X _ _ O); subst; clear X; apply operand_sibling in O;
        apply among_plain in O as (m' & rest & I1 & S & Wt); [|discriminate..] end.
      apply step_plain in S as [S ->]; [|no_dot]. destruct I1 as [<-|[<-|[]]]; [|rewrite Nb in S; discriminate].
      destruct m; try discriminate K. inversion Wt; subst. cbn in *.
      match goal with A : among [] [] _ _ |- _ => inversion A; subst; contradiction end.
    + match goal with O : operand_is _ _ ["1"%char] _ _ |- _ => destruct O as (u & [[E _]|[E _]]); discriminate E end.
    + match goal with O : operand_is _ _ _ _ _ |- _ => pose proof (X _ _ O); subst end.
      match goal with C : comparable_text _ _ _ |- _ => inversion C; subst; try discriminate K end.
      match goal with C : _ \/ _ |- _ => rewrite Se in C; destruct C; discriminate end.
Qed.
Print Assumptions C23_reused_condition_refuted.
Definition base2 : field := got_field (ex_global [] (bundle [] [int8 "a"; int8 "o"])).
Definition reused2 : field := got_field (ex_global [("B", base2)] (bundle [("reuse", "B")] [el "replace" [] [opt "o" "$zzz = 3"]])).
Theorem C23_replaced_member_refuted : ~ (forall f m c s o g d, accepted f -> In m (f_members f) -> m = FOptional c s o g (Some d) -> exists e, grounded e (f_members f) d).
Proof.
  intros H. assert (M : exists a m c s o g, f_members reused2 = [a; m] /\ m = FOptional c s o g (Some (CExpr (T "$zzz") (T "=") (T "3"))) /\ f_name a = T "a" /\ f_name m = T "o").
  { eexists _, _, _, _, _, _. do 3 (split; [vm_compute; reflexivity|]). vm_compute. reflexivity. }
  destruct M as (a & m & c & s & o & g & M & E & Na & Nm). destruct (H reused2 m c s o g (CExpr (T "$zzz") (T "=") (T "3"))) as (e & G).
  - ex_acc.
  - rewrite M. right. left. reflexivity.
  - exact E.
  - rewrite M in G. revert G. apply absent_not_grounded; [|no_dot|discriminate..].
    intros y [<-|[<-|[]]]; [rewrite Na|rewrite Nm]; discriminate.
Qed.
Print Assumptions C23_replaced_member_refuted.
Definition ex_term : field := got_field (ex_global [] (bundle [] [int8 "a"; el "list" [("name", "l"); ("termSuffix", "$zzz")] [int8 "e"]])).
Theorem C23_term_suffix_refuted : ~ (forall f m c s e a b d t, accepted f -> In m (f_members f) -> m = FList c s e a b d t -> l_detTerm s = [] \/ exists g, leads (f_members f) (l_detTerm s) g).
Proof.
  intros H. assert (M : exists y m c s e, f_members ex_term = [y; m] /\ m = FList c s e None None None None /\ f_name y = T "a" /\ f_name m = T "l" /\ l_detTerm s = T "zzz").
  { eexists _, _, _, _, _. do 4 (split; [vm_compute; reflexivity|]). vm_compute. reflexivity. }
  destruct M as (y & m & c & s & e & M & E & Ny & Nm & Es). destruct (H ex_term m c s e None None None None) as [X|(g & X)].
  - unfold ex_term. ex_acc.
  - rewrite M. right. left. reflexivity.
  - exact E.
  - rewrite Es in X. discriminate.
  - rewrite M, Es in X. remember (T "zzz") as z eqn:Z. remember [y; m] as l eqn:El. destruct X as [ms k I1|ms k rest g I1 X]; subst ms.
    + destruct I1 as [<-|[<-|[]]]; [rewrite Ny in Z|rewrite Nm in Z]; discriminate.
    + assert (D : In "."%char (T "zzz")) by (rewrite <- Z; apply in_or_app; right; left; reflexivity). revert D. no_dot.
Qed.
Print Assumptions C23_term_suffix_refuted.

(** ** examples *)
Definition ok (attrs : list (string * string)) (ms : list node) : bool := is_Ok (ex_global [] (bundle attrs ms)).
Definition ex_refs : node := bundle [("validCond", "$a >= 1")]
  [int8 "a"; set8; opt "o" "$a = 3"; opt "p" "!$s.up"; opt "q" "$?o"; el "string" [("name", "t"); ("lengthPrefix", "$a")] []; opt "r" "$#t > 4"].
Example C23_ex : reuse_free ex_refs = true /\
  match ex_global [] ex_refs with
  | Ok f => map (fun m => match m with FOptional _ _ _ _ d => d | _ => None end) (f_members f) =
      [None; None; Some (CExpr (T "$a") (T "=") (T "3")); Some (CExpr [] (T "!") (T "$s.up")); Some (CExpr [] [] (T "$?o")); None;
       Some (CExpr (T "$#t") (T ">") (T "4"))] /\ f_valid_cond f = Some (CExpr (T "$a") (T ">=") (T "1"))
  | _ => False
  end.
Proof. vm_compute. auto. Qed.
Example C23_ex_rejected :
  [ok [] [opt "o" "$a = 3"; int8 "a"]; ok [] [int8 "a"; opt "o" "$b = 3"]; ok [] [int8 "a"; opt "o" "$a = x"]; ok [] [set8; opt "o" "$s.down"];
   ok [] [int8 "a"; opt "o" "$#a > 1"]; ok [] [int8 "a"; opt "o" "$?a"]; ok [] [int8 "a"; set8; opt "o" "$a = $s"]; ok [] [int8 "a"; opt "o" "%a = 3"];
   ok [] [el "string" [("name", "t"); ("lengthPrefix", "$a")] []; int8 "a"]; ok [] [set8; el "string" [("name", "t"); ("lengthPrefix", "$s")] []];
   ok [("validCond", "$b = 1")] [int8 "a"]] = repeat false 11.
Proof. vm_compute. reflexivity. Qed.
