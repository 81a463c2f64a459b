(** Namespaces opened and closed around generated definitions. *)
From Verif.Model Require Import Base Common GenUtil GenComms.
From Verif.Spec Require Import Texts GenSpec CppSpec NameSpec.
From Verif.Proofs Require Import BaseFacts GenFacts NameFacts.
Local Open Scope string_scope. Local Open Scope Z_scope. Local Open Scope list_scope.

Lemma nested_one n : nested [n] (open_ns n) (close_ns n).
Proof.
  pose proof (nested_cons n [] [] [] nested_nil) as H. cbn [app] in H. unfold open_ns, close_ns.
  exact H.
Qed.
Lemma nested_app a : forall b b1 e1 b2 e2, nested a b1 e1 -> nested b b2 e2 -> nested (a ++ b) (b1 ++ b2) (e2 ++ e1).
Proof.
  induction a as [|n a IH]; intros b b1 e1 b2 e2 H1 H2.
  - inversion H1; subst. cbn. rewrite app_nil_r. exact H2.
  - inversion H1 as [|? ? b0 e0 H0]; subst. cbn [app]. rewrite <- !app_assoc, !(app_assoc e2).
    pose proof (nested_cons n _ _ _ (IH _ _ _ _ _ H0 H2)) as K. rewrite <- !app_assoc in *. exact K.
Qed.
(** at most one name per element *)
Lemma nested_few l : (length l <= 1)%nat -> nested l (concat (map open_ns l)) (concat (map close_ns l)).
Proof.
  destruct l as [|n [|m l]]; cbn [length map concat]; intros H; [constructor| |lia].
  rewrite !app_nil_r. apply nested_one.
Qed.
Lemma opt_few s : (length (opt_name s) <= 1)%nat.
Proof. unfold opt_name. destruct (is_nil s); cbn; lia. Qed.
(** the names, outermost first *)
Fixpoint path_namespaces (top main : str) (p : elem_path) : list str :=
  match p with
  | [] => opt_name top ++ [main]
  | (t, name) :: parents =>
      path_namespaces top main parents ++ type_namespaces t parents ++ match t with ENamespace => opt_name name | _ => [] end
  end.
Lemma type_few t p : (length (type_namespaces t p) <= 1)%nat.
Proof. destruct t; cbn; try lia. destruct (parent_is_namespace p); cbn; lia. Qed.
Lemma namespaces_nested top main p : nested (path_namespaces top main p) (genNamespaceBeginFor top main p) (genNamespaceEndFor top main p).
Proof.
  induction p as [|[t name] p IH]; cbn [path_namespaces genNamespaceBeginFor genNamespaceEndFor].
  - apply nested_app; [apply nested_few, opt_few|apply nested_one].
  - destruct t; cbn [type_namespaces]; rewrite ?app_nil_r.
    1: cbn [app map concat]; apply nested_app; [exact IH|apply nested_few, opt_few].
    2: destruct (parent_is_namespace p); [|cbn [map concat]; rewrite !app_nil_r; exact IH].
    all: try (cbn [map concat]; rewrite ?app_nil_r; exact IH).
    all: apply nested_app; [exact IH|]; apply nested_few; cbn; lia.
Qed.
Lemma path_ns path top main : path_namespaces top main (rev (map (fun k => (ENamespace, k)) path)) = opt_name top ++ main :: ns_parts path.
Proof.
  induction path as [|k path IH] using rev_ind; [reflexivity|].
  rewrite map_app, rev_app_distr. cbn [map rev app path_namespaces type_namespaces]. rewrite IH. unfold ns_parts. rewrite map_app, concat_app. cbn.
  rewrite app_nil_r, <- !app_assoc. reflexivity.
Qed.
