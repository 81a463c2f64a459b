(** Properties C01-C05, C21: text and length helpers. *)
From Verif.Model Require Import Base Common.
From Verif.Spec Require Import Texts.
From Verif.Proofs Require Import BaseFacts CommonFacts.

(** C01 *)
Theorem C01_signed_literal : forall t z,
  parseStrToIntMax t = Some z <-> denotes t z /\ - 2 ^ 63 <= z < 2 ^ 63.
Proof. exact stoll_spec. Qed.
Print Assumptions C01_signed_literal.
Theorem C01_literal_unique : forall t z1 z2, denotes t z1 -> denotes t z2 -> z1 = z2.
Proof. exact denotes_det. Qed.
Print Assumptions C01_literal_unique.
Example C01_ex : denotes (T " -0x1Fz") (-31) /\ parseStrToIntMax (L " -0x1Fz") = Some (-31).
Proof. split; [apply stoll_spec; vm_compute; reflexivity | vm_compute; reflexivity]. Qed.
Example C01_ex_reject : parseStrToIntMax (L "9223372036854775808") = None /\
  parseStrToIntMax (L "9223372036854775807") = Some (2 ^ 63 - 1) /\ parseStrToIntMax (L "x1") = None.
Proof. vm_compute. auto. Qed.

(** C41: unsigned 64 bit literals. A negative literal is accepted modulo 2^64. *)
Theorem C41_unsigned_literal_partial : forall t z,
  parseStrToUintMax t = Some z <-> exists v, denotes t v /\ Z.abs v < 2 ^ 64 /\ z = v mod 2 ^ 64.
Proof. exact stoull_spec. Qed.
Print Assumptions C41_unsigned_literal_partial.
Theorem C41_unsigned_literal_refuted : exists t v z,
  denotes t v /\ parseStrToUintMax t = Some z /\ z <> v.
Proof.
  exists (T "-1"), (-1), 18446744073709551615.
  split; [apply stoll_spec; vm_compute; reflexivity|]. split; [vm_compute; reflexivity|discriminate].
Qed.
Print Assumptions C41_unsigned_literal_refuted.

(** C02: unsigned (32 bit) properties are truncated. *)
Theorem C02_unsigned_property_partial : forall t z,
  parseStrToUnsigned t = Some z <->
  exists v, denotes t v /\ Z.abs v < 2 ^ 64 /\ z = v mod 2 ^ 32.
Proof. exact unsigned_spec. Qed.
Print Assumptions C02_unsigned_property_partial.
Theorem C02_small_values_exact_partial : forall t v,
  denotes t v -> 0 <= v < 2 ^ 32 -> parseStrToUnsigned t = Some v.
Proof. exact unsigned_small. Qed.
Print Assumptions C02_small_values_exact_partial.
Theorem C02_unsigned_property_refuted : exists t v z,
  denotes t v /\ parseStrToUnsigned t = Some z /\ z <> v.
Proof.
  exists (T "4294967297"), 4294967297, 1.
  split; [apply stoll_spec; vm_compute; reflexivity|]. split; [vm_compute; reflexivity|discriminate].
Qed.
Print Assumptions C02_unsigned_property_refuted.

(** C03 *)
Theorem C03_names_are_identifiers : forall t, parseIsValidName t = true <-> identifier t.
Proof. exact parseIsValidName_spec. Qed.
Print Assumptions C03_names_are_identifiers.
Theorem C03_reference_names : forall t,
  parseIsValidRefName t = true <-> (dotted t \/ exists t', t = "@"%char :: t' /\ dotted t').
Proof. exact parseIsValidRefName_spec. Qed.
Print Assumptions C03_reference_names.
Theorem C03_external_reference_names : forall t,
  parseIsValidExternalRefName t = true <->
  exists t', t = "^"%char :: t' /\ (dotted t' \/ exists t'', t' = "@"%char :: t'' /\ dotted t'').
Proof. exact ext_ref_spec. Qed.
Print Assumptions C03_external_reference_names.
Example C03_ex : parseIsValidName (L "_a9") = true /\ parseIsValidName (L "9a") = false /\
  parseIsValidName [] = false /\ parseIsValidRefName (L "@ns.f_1") = true /\
  parseIsValidRefName (L "a..b") = false /\ parseIsValidRefName (L "a.") = false /\
  parseIsValidExternalRefName (L "^a.b") = true.
Proof. vm_compute. repeat split. Qed.

(** C04 *)
Theorem C04_trim : forall s, exists a b,
  s = a ++ trim s ++ b /\ Forall blank a /\ Forall blank b /\
  first_not blank (trim s) /\ last_not blank (trim s).
Proof. exact trim_spec. Qed.
Print Assumptions C04_trim.
Theorem C04_trim_idempotent : forall s, trim (trim s) = trim s.
Proof. exact trim_idem. Qed.
Print Assumptions C04_trim_idempotent.
Theorem C04_normalise : forall s t, normalise s = t <-> squeezed s t.
Proof. exact normalise_spec. Qed.
Print Assumptions C04_normalise.
Theorem C04_normalise_idempotent : forall s, normalise (normalise s) = normalise s.
Proof. exact normalise_idem. Qed.
Print Assumptions C04_normalise_idempotent.
Example C04_ex : normalise (trim (chr 10 :: L "a  b " ++ [chr 9])) = L "a b".
Proof. vm_compute. reflexivity. Qed.

(** C05 *)
Theorem C05_range : forall t lo hi, parseRange t = Some (lo, hi) <-> range_text t lo hi.
Proof. exact parseRange_spec. Qed.
Print Assumptions C05_range.
Example C05_ex : parseRange (L "[1 ,  5]") = Some (L "1", L "5") /\ parseRange (L "[1,2,3]") = None.
Proof. vm_compute. auto. Qed.

(** C21 *)
Theorem C21_add_saturates : forall a b, 0 <= a < 2 ^ 64 -> 0 <= b < 2 ^ 64 ->
  add_len a b = Z.min (2 ^ 64 - 1) (a + b).
Proof. exact add_len_spec. Qed.
Print Assumptions C21_add_saturates.
Theorem C21_mul_saturates_partial : forall a b, 0 <= a < 2 ^ 64 -> 0 < b < 2 ^ 64 ->
  mul_len a b = Ok (Z.min (2 ^ 64 - 1) (a * b)).
Proof. exact mul_len_spec. Qed.
Print Assumptions C21_mul_saturates_partial.
(** the division by the factor traps on a zero factor *)
Theorem C21_mul_refuted : exists a b, 0 <= a < 2 ^ 64 /\ 0 <= b < 2 ^ 64 /\ mul_len a b = UB.
Proof. exists 1, 0. vm_compute. repeat split; discriminate. Qed.
Print Assumptions C21_mul_refuted.
Example C21_ex : add_len (2 ^ 64 - 1) 1 = 2 ^ 64 - 1 /\ mul_len 4294967296 4294967296 = Ok (2 ^ 64 - 1) /\
  mul_len 3 5 = Ok 15.
Proof. vm_compute. auto. Qed.
