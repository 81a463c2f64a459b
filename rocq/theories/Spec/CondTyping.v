(** Which values a field can have: the classes generated for it. *)
From Coq Require Import Ascii String ZArith List Bool.
Import ListNotations.
From Verif.Model Require Import Base Common Units Field GenComms CommsInt CommsCond.
From Verif.Spec Require Import Texts Ints GenSpec CppSpec CondCode.
Open Scope Z_scope.

(** the number a stored 64 bit number stands for in a field of this type *)
Definition stands_for (t : int_type) (stored n : Z) : Prop :=
  - 2 ^ 63 <= stored < 2 ^ 63 /\
  if is_unsigned t then 0 <= n < 2 ^ 64 /\ (n - stored) mod 2 ^ 64 = 0 else n = stored.
Definition named_values (t : int_type) (l : list (str * named_val)) (names : list (txt * Z)) : Prop :=
  Forall2 (fun a b => fst a = fst b /\ stands_for t (v_value (snd a)) (snd b)) l names.
(** fields whose existence depends on the version are wrapped; [up]: versions of the message
    and bundles around the field *)
Fixpoint typed (ge : gen_env) (up : list velem) (f : field) (v : dval) : Prop :=
  let body (v : dval) : Prop :=
    match f, v with
    | FInt _ s, VNum ty names z => ty = genCppIntTypeFor (i_type s) (i_length s) /\ cpp_holds ty z /\ named_values (i_type s) (i_specials s) names
    | FEnum _ s, VNum ty names z => ty = genCppIntTypeFor (en_type s) (en_length s) /\ cpp_holds ty z /\ named_values (en_type s) (en_values s) names
    | FSet _ s, VBits bs => Forall (fun b => In (fst b) (map fst (s_bits s))) bs
    | FString _ _ _, VText _ => True
    | FData _ _ _, VSeq n | FList _ _ _ _ _ _ _, VSeq n => 0 <= n < 2 ^ 64
    | FBitfield _ _ ms _, VMembers vs | FBundle _ ms _ _, VMembers vs =>
        (fix go (ms : list field) (vs : list (txt * dval)) : Prop :=
           match ms, vs with
           | [], [] => True
           | m :: ms', (n, w) :: vs' => n = f_name m /\ typed ge (velem_of f :: up) m w /\ go ms' vs'
           | _, _ => False
           end) ms vs
    | FOptional _ _ own g _, VOptional _ n w => n = f_name g /\ typed ge (if own then velem_of f :: up else []) g w
    | FRef _ _ t, _ => typed ge [] t v
    | FFloat _ _, VOther | FVariant _ _ _, VOther => True
    | _, _ => False
    end in
  if version_optional ge up f then match v with VVersioned _ w => body w | _ => False end else body v.
(** the values of the fields of a message or bundle *)
Definition typed_env (ge : gen_env) (up : list velem) (fs : list field) (env : list (txt * dval)) : Prop :=
  Forall2 (fun f b => fst b = f_name f /\ typed ge up f (snd b)) fs env.
