(** Builders of concrete elements and environments for the examples next to the theorems. *)
From Verif.Model Require Import Base Common Xml Units Field FieldCommon IntField Composite.
From Verif.Spec Require Import Texts Ints Versions IntSpec FieldSpec.

(** a protocol of version 10 in which the fields [l] were defined before *)
Definition ex_fenv (l : list (string * field)) : env :=
  mkEnv 10 0 Big (fun s => assoc s (map (fun a => (L (fst a), snd a)) l))
    (fun _ => None) (fun _ => None) (fun _ => None) (fun _ => None) (fun _ => None) (fun _ => None)
    (fun _ => None) (fun _ => Ok []).
Definition el (name : string) (attrs : list (string * string)) (children : list node) : node :=
  Elem (L name) (map (fun a => (L (fst a), L (snd a))) attrs) children.
Definition text_el (name text : string) : node := Elem (L name) [] [TextNode (L text)].
Definition global_ctx : ctx := mkCtx PNamespace 0 not_deprecated.
Definition message_ctx (since depr : Z) : ctx := mkCtx PMessage since depr.
(** the element [n] defined in a namespace *)
Definition ex_global (l : list (string * field)) (n : node) : res field := parse_field (ex_fenv l) global_ctx n.
Definition dummy_field : field := FVariant (init_common false) None [].
Definition got_field (r : res field) : field := match r with Ok f => f | _ => dummy_field end.
Definition is_Ok {A} (r : res A) : bool := match r with Ok _ => true | _ => false end.
Arguments el name%string_scope attrs%string_scope children.
Arguments text_el name%string_scope text%string_scope.
Arguments ex_global l%string_scope n.
Arguments ex_fenv l%string_scope.
