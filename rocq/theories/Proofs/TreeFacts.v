(** The recorded condition trees are the written ones. *)
From Verif.Model Require Import Base Common Xml Units Field FieldCommon IntField EnumField SetField FloatField OptCond Composite.
From Verif.Spec Require Import Texts Ints Versions IntSpec EnumSpec XmlSpec FieldSpec CondSpec TreeSpec.
From Verif.Proofs Require Import BaseFacts CommonFacts CondFacts XmlFacts IntFacts IntInv FieldInv FieldFacts OwnFacts SingleFacts.
Local Open Scope list_scope.

Lemma cond_expr_text e t c : cond_expr e t = Ok c -> text_cond t c.
Proof.
  unfold cond_expr. intros H. apply bind_Ok in H as (u & _ & H). apply try_ops_spec in H as (l & op & r & -> & H); [|apply ops_are_operators].
  destruct H as [H|[-> H]]; [apply tc_compare|apply tc_single]; exact H.
Qed.
Lemma cond_list_tree e k n : forall c, cond_list e k n = Ok c -> tree_cond k n c.
Proof.
  induction n as [nm a ch IH| |] using node_ind'; intros c H; try discriminate.
  cbn [cond_list] in H. apply bind_Ok in H as (isAnd & H1 & H). apply bind_Ok in H as (l & H2 & H).
  apply bind_Ok in H as (u & H3 & H). injection H as <-. apply guard_Ok in H3. apply Nat.leb_le in H3.
  assert (I : items_cond k ch l).
  { clear H1 H3 u nm a isAnd. revert l H2. induction ch as [|m ch IHch]; intros l H2; [injection H2 as <-; constructor|].
    inversion IH as [|m' ch' Hm Hch]; subst. destruct m as [nm a ch0|t|]; cbn [is_elem n_name] in H2.
    - apply bind_Ok in H2 as (x & Hx & H2). apply bind_Ok in H2 as (xs & Hxs & H2). injection H2 as <-.
      destruct (str_eqb nm k) eqn:E.
      + apply str_eqb_eq in E as ->. apply bind_Ok in Hx as (s & Hs & Hx). apply child_value_spec in Hs as [Hs _].
        eapply it_single; [exact Hs|eapply cond_expr_text; exact Hx|apply (IHch Hch); exact Hxs].
      + destruct (str_eqb nm (L "and") || str_eqb nm (L "or")); [|discriminate]. apply it_tree; [apply Hm, Hx|apply (IHch Hch); exact Hxs].
    - apply it_text. apply (IHch Hch); exact H2.
    - apply it_other. apply (IHch Hch); exact H2. }
  destruct (str_eqb nm (L "and")) eqn:E1; [apply str_eqb_eq in E1 as ->; injection H1 as <-; apply tr_and; assumption|].
  destruct (str_eqb nm (L "or")) eqn:E2; [|discriminate]. apply str_eqb_eq in E2 as ->. injection H1 as <-. apply tr_or; assumption.
Qed.
Lemma and_or_children n : and_or (n_children n) (parseGetChildrenOf n [L "and"; L "or"] false).
Proof.
  unfold parseGetChildrenOf. induction (n_children n) as [|m l IH]; [constructor|]. cbn [filter].
  destruct m as [nm a ch|t|]; cbn [is_elem is_nil n_name andb orb negb].
  - destruct (mem_str nm [L "and"; L "or"]) eqn:E.
    + apply ao_this; [|exact IH]. apply mem_str_In in E as [<-|[<-|[]]]; auto.
    + apply mem_str_nIn in E. apply ao_other; [|exact IH]. intros nm' a' ch' X. injection X as <- _ _. cbn in E. split; intros ->; apply E; auto.
  - apply ao_other; [discriminate|exact IH].
  - apply ao_other; [discriminate|exact IH].
Qed.
(** one property [k], or one tree, or nothing *)
Lemma written_spec e n p k trees c0 c :
  supplied n k (values_of p k) -> once p k ->
  c0 = match find_prop p k with None => Ok None | Some v => (x <- cond_expr e v ;; Ok (Some x)) end ->
  (y <- c0 ;; match trees with
         | [] => Ok y
         | [m] => _ <- parseValidateNoPropInstance p k ;; x <- cond_list e k m ;; Ok (Some x)
         | _ :: _ :: _ => Err
         end) = Ok c -> written_cond n k trees c.
Proof.
  intros S O -> H. rewrite find_values in H. unfold once in O.
  unfold parseValidateNoPropInstance in H. rewrite find_values in H. apply bind_Ok in H as (y & Hy & H).
  destruct (values_of p k) as [|v [|w vs]] eqn:V; cbn [hd_error] in *.
  - injection Hy as <-. destruct trees as [|m [|]]; [injection H as <-; apply wc_none; auto| |discriminate].
    apply bind_Ok in H as (u & _ & H). apply bind_Ok in H as (x & Hx & H). injection H as <-. eapply wc_tree; [exact S|reflexivity|]. eapply cond_list_tree; exact Hx.
  - apply bind_Ok in Hy as (x & Hx & Hy). injection Hy as <-. destruct trees as [|m [|]]; [|apply bind_Ok in H as (u & X & _); discriminate X|discriminate].
    injection H as <-. eapply wc_text; [exact S|reflexivity|]. eapply cond_expr_text; exact Hx.
  - exfalso. revert O. rewrite ?count_values, ?V. cbn. lia.
Qed.
(** properties of one kind of field *)
Lemma extra_supplied n k p s : field_props n (extra_props k) (possible_props k) = Ok p -> mem_str s (extra_props k) = true ->
  mem_str s common_props = false -> mem_str s (possible_props k) = false -> supplied n s (values_of p s).
Proof.
  intros H A B C. eapply field_props_supplied; [exact H| |right; split; [apply mem_str_In; exact A|apply mem_str_nIn; exact B]|apply mem_str_nIn; exact C].
  intros ->. destruct k; discriminate A.
Qed.
Lemma optional_written e x n c s o g d : parse_field e x n = Ok (FOptional c s o g d) -> supplied n (T "reuse") [] ->
  exists trees, and_or (n_children n) trees /\ written_cond n (T "cond") trees d.
Proof.
  intros H R. apply field_parse_inv in H as (fuel & k & p & c0 & old & repl & c' & _ & Hk & Hp & Hr & Hrep & Hc & Hkp & _).
  assert (K : f_kind (FOptional c s o g d) = k) by (eapply kind_parse_common; eauto). cbn in K. subst k.
  assert (Old : old = None).
  { assert (V : values_of p (L "reuse") = []) by (eapply supplied_det; [eapply common_supplied; [exact Hp|apply mem_str_In; reflexivity]|exact R]).
    apply check_reuse_old in Hr as [_ Hr]. rewrite find_values, V in Hr. cbn in Hr. apply Hr. }
  subst old. apply optional_inv in Hkp as (s' & o' & g' & d' & d0 & E & U & D0); [|intros y; discriminate]. injection E as _ _ _ _ <-. subst d0.
  exists (parseGetChildrenOf n [L "and"; L "or"] false). split; [apply and_or_children|].
  unfold update_opt_cond in U. apply bind_Ok in U as (u & O & U). apply once_single in O.
  eapply written_spec; [eapply extra_supplied; [exact Hp|reflexivity..]|exact O|reflexivity|exact U].
Qed.
