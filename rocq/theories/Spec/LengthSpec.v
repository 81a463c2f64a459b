(** Specification: how many bytes a value of a field can occupy on the wire, at the newest
    protocol version. Written without any function of the model (only its data types). *)
From Coq Require Import ZArith List.
Import ListNotations.
From Verif.Model Require Import Base Field.
From Verif.Spec Require Import Texts Ints FieldSpec.
Open Scope Z_scope.

Fixpoint total (l : list Z) : Z := match l with [] => 0 | x :: l' => x + total l' end.
(** bits a member of a bitfield occupies *)
Definition bits_of (m : field) : Z :=
  match m with
  | FInt _ s => i_bitLength s | FEnum _ s => en_bitLength s | FSet _ s => s_bitLength s | FRef _ b _ => b
  | _ => 0
  end.
Definition float_bytes (t : float_type) : Z := match t with Float32 => 4 | Float64 => 8 end.
(** [n] is a number the length or count prefix [p] can hold *)
Definition prefix_holds (p : field) (n : Z) : Prop :=
  0 <= n /\ match p with FInt _ s => exists hi, stands_for (i_type s) (i_max s) hi /\ n <= hi | _ => True end.
Definition has_available_limit (f : field) : Prop :=
  match f with
  | FInt _ s => i_availableLengthLimit s = true
  | FEnum _ s => en_availableLengthLimit s = true
  | FSet _ s => s_availableLengthLimit s = true
  | _ => False
  end.

Inductive takes : field -> Z -> Prop :=
(** pseudo fields are not serialised *)
| tk_pseudo f : c_pseudo (f_common f) = true -> takes f 0
(** fields limited to the available length may be cut short *)
| tk_available f n k : has_available_limit f -> takes f n -> 1 <= k <= n -> takes f k
| tk_int c s : ~ variable_type (i_type s) -> takes (FInt c s) (i_length s)
| tk_intvar c s n : variable_type (i_type s) -> 1 <= n <= i_length s -> takes (FInt c s) n
| tk_enum c s : ~ variable_type (en_type s) -> takes (FEnum c s) (en_length s)
| tk_enumvar c s n : variable_type (en_type s) -> 1 <= n <= en_length s -> takes (FEnum c s) n
| tk_set c s : takes (FSet c s) (s_length s)
| tk_float c s : takes (FFloat c s) (float_bytes (f_type s))
| tk_bitfield c e ms v : takes (FBitfield c e ms v) (total (map bits_of ms) / 8)
| tk_bundle c ms a v ns : Forall2 takes ms ns -> takes (FBundle c ms a v) (total ns)
| tk_string c s pre n : payload_takes (st_length s) (st_zeroSuffix s) pre n -> takes (FString c s pre) n
| tk_data c s pre n : payload_takes (d_length s) false pre n -> takes (FData c s pre) n
| tk_list_count c s el a b d t n : l_count s <> 0 -> elements_take s el d (l_count s) n ->
    takes (FList c s el a b d t) n
| tk_list_countPrefix c s el o p b d t k j n : l_count s = 0 -> takes p k -> prefix_holds p j ->
    elements_take s el d j n -> takes (FList c s el (Some (o, p)) b d t) (k + n)
| tk_list_lengthPrefix c s el o p d t k n : l_count s = 0 -> takes p k -> prefix_holds p n ->
    takes (FList c s el None (Some (o, p)) d t) (k + n)
| tk_list_termSuffix c s el d o p k j n : l_count s = 0 -> takes p k -> elements_take s el d j n ->
    takes (FList c s el None None d (Some (o, p))) (k + n)
| tk_list_rest c s el d j n : l_count s = 0 -> elements_take s el d j n -> takes (FList c s el None None d None) n
| tk_ref c b t n : takes t n -> takes (FRef c b t) n
| tk_missing c s o g d : takes (FOptional c s o g d) 0
| tk_present c s o g d n : takes g n -> takes (FOptional c s o g d) n
| tk_no_member c d ms : takes (FVariant c d ms) 0
| tk_member c d ms m n : In m ms -> takes m n -> takes (FVariant c d ms) n
(** strings and data: fixed length, zero terminated, with a length prefix, or until the end
    (or as long as a sibling field says) *)
with payload_takes : Z -> bool -> option (bool * field) -> Z -> Prop :=
| pt_fixed len z pre : len <> 0 -> payload_takes len z pre len
| pt_zero pre n : 0 <= n -> payload_takes 0 true pre (n + 1)
| pt_prefix o p k n : takes p k -> prefix_holds p n -> payload_takes 0 false (Some (o, p)) (k + n)
| pt_rest n : 0 <= n -> payload_takes 0 false None n
(** [j] elements, possibly each with a length prefix (only the first one when all have the
    same length) *)
with elements_take : list_state -> bool * field -> option (bool * field) -> Z -> Z -> Prop :=
| et_plain s o g ns j : j = Z.of_nat (length ns) -> Forall (takes g) ns -> elements_take s (o, g) None j (total ns)
| et_each s o g o' p ns ks j : l_elemFixedLength s = false -> j = Z.of_nat (length ns) -> length ks = length ns ->
    Forall (takes g) ns -> Forall (takes p) ks -> elements_take s (o, g) (Some (o', p)) j (total ns + total ks)
| et_once s o g o' p ns k j : l_elemFixedLength s = true -> j = Z.of_nat (length ns) ->
    Forall (takes g) ns -> takes p k -> elements_take s (o, g) (Some (o', p)) j (total ns + k).

(** neither the field nor anything it consists of is pseudo or cut short *)
Definition plain (f : field) : Prop := forall g, part_of g f ->
  c_pseudo (f_common g) = false /\ ~ has_available_limit g.
(** no bitfield in it is wider than an std::size_t can tell *)
Definition sane_bitfields (f : field) : Prop := forall c e ms v, part_of (FBitfield c e ms v) f ->
  total (map bits_of ms) < 2 ^ 64.
(** if [f] is a bitfield, its members make up whole bytes, at most 8 *)
Definition fills_bytes (f : field) : Prop := forall c en ms v, f = FBitfield c en ms v -> total (map bits_of ms) < 2 ^ 64 ->
  total (map bits_of ms) mod 8 = 0 /\ total (map bits_of ms) <= 64.
