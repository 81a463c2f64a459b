(** C71: strings, data and lists whose length or count is the value of another field. *)
From Coq Require Import Lia ZifyBool ZifyNat.
From Verif.Model Require Import Base Common Xml Units Field FieldCommon IntField OptCond Composite GenUtil GenComms CommsInt CommsCond CommsPrefix.
From Verif.Spec Require Import Texts Ints FieldSpec GenSpec CppSpec TokenSpec Ex CondCode CondTyping PrefixCode.
From Verif.Proofs Require Import BaseFacts CommonFacts FieldInv ExFacts CondCodeFacts CondTextFacts CondExprFacts CondMeanFacts TokenFacts PrefixFacts PrefixRun.
From Verif.Props Require Import PCondCode.
Local Open Scope string_scope. Local Open Scope Z_scope. Local Open Scope list_scope.

(** Before such a field is read its class is told, for every property that comes from another field, the number in that field; nothing is
    said when one of the two fields is missing.  ([up]: versions of the elements around, [sibs]: the members
    of the message or bundle, [env]: their values, [own]: whether the field itself is there.) *)
Theorem C71_told : forall ge up sibs env f own w said,
  typed_env ge up sibs env -> accessible (VMembers env) ->
  find_named (f_name f) sibs = Some f -> word (f_name f) -> from env [f_name f] own w -> sequence w ->
  Forall2 (informed env own) (prefixes f) said ->
  exists out x prog, prepare_body ge up sibs f = Ok out /\ obj env x w /\ tokens out = tokens (print_ps prog) /\
    calls_all env prog (map (fun c => (x, fst c, snd c)) (concat said)).
Proof. intros ge up sibs env f own w said Te Ac Ff Wf Fr Sw Fi. eapply prepare_body_code; eauto. Qed.
Print Assumptions C71_told.

(** A string or data with a length in another field: the generated function makes both the same.  A sequence
    longer than the C++ type of the number allows is cut off. *)
Theorem C71_refreshed : forall ge up sibs env f own w s path pres ty names z0,
  typed_env ge up sibs env -> accessible (VMembers env) ->
  find_named (f_name f) sibs = Some f -> word (f_name f) -> from env [f_name f] own w -> sequence w ->
  prefixes f = [(s, T "forceReadLength")] -> path_text s path -> from env path pres (VNum ty names z0) ->
  exists out code a x, refresh_body ge up sibs f = Ok out /\ tokens out = tokens (print_code code) /\
    obj env a (VNum ty names z0) /\ obj env x w /\
    forall z l m, cpp_holds ty z -> elements l -> limit ty m ->
      let kept := firstn (Z.to_nat (Z.min m (Z.of_nat (length l)))) l in
      runs code a x ty z l (Z.of_nat (length kept)) kept (negb (z =? Z.of_nat (length l))).
Proof.
  intros ge up sibs env f own w s path pres ty names z0 Te Ac Ff Wf Fr Sw Ep Pt Fp.
  destruct (seq_refresh ge up sibs env f own w Te Ac Sw Ff Wf Fr s path pres ty names z0 Ep Pt Fp) as (out & a & x & E & Oa & Ox & Tt).
  exists out, (len_code a x), a, x. repeat (split; [assumption|]). intros z l m Hz He Lm. now apply seq_run.
Qed.
Print Assumptions C71_refreshed.
(** The same for a list with the number of its elements in another field. *)
Theorem C71_count_refreshed : forall ge up sibs env f own w s path pres ty names z0,
  typed_env ge up sibs env -> accessible (VMembers env) ->
  find_named (f_name f) sibs = Some f -> word (f_name f) -> from env [f_name f] own w -> sequence w ->
  prefixes f = [(s, T "forceReadElemCount"); ([], T "forceReadLength"); ([], T "forceReadElemLength")] ->
  path_text s path -> from env path pres (VNum ty names z0) ->
  exists out code a x, refresh_body ge up sibs f = Ok out /\ tokens out = tokens (print_code code) /\
    obj env a (VNum ty names z0) /\ obj env x w /\
    forall z l m, cpp_holds ty z -> elements l -> limit ty m ->
      let kept := firstn (Z.to_nat (Z.min m (Z.of_nat (length l)))) l in
      runs code a x ty z l (Z.of_nat (length kept)) kept (negb (z =? Z.of_nat (length l))).
Proof.
  intros ge up sibs env f own w s path pres ty names z0 Te Ac Ff Wf Fr Sw Ep Pt Fp.
  destruct (list_refresh ge up sibs env f own w Te Ac Sw Ff Wf Fr PCount s path pres ty names z0 ltac:(rewrite Ep; reflexivity) Pt Fp) as (out & a & x & E & Oa & Ox & Tt).
  exists out, (list_code [block_code PCount a x]), a, x. repeat (split; [assumption|]). intros z l m Hz He Lm. now apply count_run.
Qed.
Print Assumptions C71_count_refreshed.
(** A list with its length in bytes in another field: elements are taken off its end until the length fits. *)
Theorem C71_length_refreshed : forall ge up sibs env f own w s path pres ty names z0,
  typed_env ge up sibs env -> accessible (VMembers env) ->
  find_named (f_name f) sibs = Some f -> word (f_name f) -> from env [f_name f] own w -> sequence w ->
  prefixes f = [([], T "forceReadElemCount"); (s, T "forceReadLength"); ([], T "forceReadElemLength")] ->
  path_text s path -> from env path pres (VNum ty names z0) ->
  exists out code a x, refresh_body ge up sibs f = Ok out /\ tokens out = tokens (print_code code) /\
    obj env a (VNum ty names z0) /\ obj env x w /\
    forall z l m, cpp_holds ty z -> elements l -> limit ty m ->
      exists kept, fitting m l kept /\ runs code a x ty z l (sum kept) kept (negb (z =? sum l)).
Proof.
  intros ge up sibs env f own w s path pres ty names z0 Te Ac Ff Wf Fr Sw Ep Pt Fp.
  destruct (list_refresh ge up sibs env f own w Te Ac Sw Ff Wf Fr PLength s path pres ty names z0 ltac:(rewrite Ep; reflexivity) Pt Fp) as (out & a & x & E & Oa & Ox & Tt).
  exists out, (list_code [block_code PLength a x]), a, x. repeat (split; [assumption|]). intros z l m Hz He Lm. now apply length_run.
Qed.
Print Assumptions C71_length_refreshed.
(** With the length of the elements in another field the function does not work: it runs into an assertion
    whenever there are elements and the number has to be changed. *)
Theorem C71_element_length_refuted : forall ge up sibs env f own w s path pres ty names z0,
  typed_env ge up sibs env -> accessible (VMembers env) ->
  find_named (f_name f) sibs = Some f -> word (f_name f) -> from env [f_name f] own w -> sequence w ->
  prefixes f = [([], T "forceReadElemCount"); ([], T "forceReadLength"); (s, T "forceReadElemLength")] ->
  path_text s path -> from env path pres (VNum ty names z0) ->
  exists out code a x, refresh_body ge up sibs f = Ok out /\ tokens out = tokens (print_code code) /\
    obj env a (VNum ty names z0) /\ obj env x w /\
    (forall z, cpp_holds ty z -> runs code a x ty z [] 0 [] (negb (z =? 0))) /\
    (forall z n l, cpp_holds ty z -> 0 <= n < 2 ^ 63 -> z <> n -> fails code a x ty z (n :: l)).
Proof.
  intros ge up sibs env f own w s path pres ty names z0 Te Ac Ff Wf Fr Sw Ep Pt Fp.
  destruct (list_refresh ge up sibs env f own w Te Ac Sw Ff Wf Fr PElemLength s path pres ty names z0 ltac:(rewrite Ep; reflexivity) Pt Fp) as (out & a & x & E & Oa & Ox & Tt).
  exists out, (list_code [block_code PElemLength a x]), a, x. repeat (split; [assumption|]). split.
  - intros z Hz. destruct (limit_exists _ _ Hz) as (m & Lm). now apply elem_empty with (m := m).
  - intros z n l Hz Hn N. destruct (limit_exists _ _ Hz) as (m & Lm). now apply elem_fails with (m := m).
Qed.
Print Assumptions C71_element_length_refuted.
(** every type of numbers has a largest one *)
Theorem C71_limit : forall ty z, cpp_holds ty z -> exists m, limit ty m /\ 0 <= m.
Proof. intros ty z H. destruct (limit_exists _ _ H) as (m & L). exists m. split; [exact L|]. apply limit_nonneg in L. lia. Qed.
Print Assumptions C71_limit.

(** ** An example *)
Definition x_cnt := el "int" [("name", "cnt"); ("type", "uint16"); ("semanticType", "length")] [].
Definition x_bits := el "bitfield" [("name", "bits")] [
  el "int" [("name", "Len"); ("type", "uint8"); ("bitLength", "3"); ("semanticType", "length")] [];
  el "int" [("name", "rest"); ("type", "uint8"); ("bitLength", "5")] []].
Definition x_elem := el "int" [("name", "e"); ("type", "uint8")] [].
Definition x_seqs := el "bundle" [("name", "B")] [x_bits; x_cnt;
  el "data" [("name", "d"); ("lengthPrefix", "$bits.Len")] [];
  el "list" [("name", "A"); ("countPrefix", "$cnt")] [x_elem];
  el "list" [("name", "C"); ("lengthPrefix", "$cnt")] [x_elem];
  el "list" [("name", "E"); ("count", "2"); ("elemFixedLength", "true"); ("elemLengthPrefix", "$cnt")] [x_elem]].
Definition sq_fields : list field := Eval vm_compute in match got_field (ex_global [] x_seqs) with FBundle _ ms _ _ => ms | _ => [] end.
Definition sq_env : list (txt * dval) := [
  (T "bits", VMembers [(T "Len", VNum (T "std::uint8_t") [] 7); (T "rest", VNum (T "std::uint8_t") [] 0)]);
  (T "cnt", VNum (T "std::uint16_t") [] 3); (T "d", VSeq 7); (T "A", VSeq 2); (T "C", VSeq 3); (T "E", VSeq 2)].
Definition sq_member (i : nat) : field := match nth_error sq_fields i with Some f => f | None => got_field (ex_global [] x_cnt) end.
Lemma sq_typed : typed_env plain_ge [] sq_fields sq_env.
Proof.
  unfold sq_fields, sq_env.
  assert (forall z, 0 <= z < 256 -> cpp_holds (T "std::uint8_t") z) as U8.
  { intros z Hz. right. exists 8. split; [vm_compute; tauto|]. unfold unsigned_bits. lia. }
  apply Forall2_cons. { split; [reflexivity|]. split; [reflexivity|]. split.
    { split; [reflexivity|]. split; [apply U8; lia|constructor]. }
    split; [reflexivity|]. split; [|exact I]. split; [reflexivity|]. split; [apply U8; lia|constructor]. }
  apply Forall2_cons. { split; [reflexivity|]. split; [reflexivity|]. split; [|constructor]. right. exists 16. split; [vm_compute; tauto|]. unfold unsigned_bits. lia. }
  repeat (apply Forall2_cons; [split; [reflexivity|]; cbn; lia|]). constructor.
Qed.
Lemma sq_accessible : accessible (VMembers sq_env).
Proof.
  apply accessible_members; [constructor; [|repeat constructor]|repeat constructor; discriminate|].
  - apply accessible_members; [repeat constructor|repeat constructor; discriminate|]. vm_compute. repeat constructor; cbn; intuition discriminate.
  - vm_compute. repeat constructor; cbn; intuition discriminate.
Qed.
Lemma sq_len : path_text (T "bits.Len") [T "bits"; T "Len"] /\ from sq_env [T "bits"; T "Len"] true (VNum (T "std::uint8_t") [] 7).
Proof.
  split; [split; [reflexivity|split; [discriminate|repeat (constructor; [word_lit|]); constructor]]|]. split; [|discriminate].
  eapply reach_member; [reflexivity|]. eapply reach_member; [reflexivity|]. constructor.
Qed.
Lemma sq_cnt : path_text (T "cnt") [T "cnt"] /\ from sq_env [T "cnt"] true (VNum (T "std::uint16_t") [] 3).
Proof.
  split; [split; [reflexivity|split; [discriminate|repeat (constructor; [word_lit|]); constructor]]|]. split; [|discriminate].
  eapply reach_member; [reflexivity|]. constructor.
Qed.
(** the members satisfy the hypotheses of the theorems; some of the generated code *)
Example C71_ex : is_Ok (ex_global [] x_seqs) = true /\ typed_env plain_ge [] sq_fields sq_env /\ accessible (VMembers sq_env) /\
  Forall (fun f => find_named (f_name f) sq_fields = Some f /\ word (f_name f)) sq_fields /\
  map prefixes (skipn 2 sq_fields) = [
    [(T "bits.Len", T "forceReadLength")];
    [(T "cnt", T "forceReadElemCount"); ([], T "forceReadLength"); ([], T "forceReadElemLength")];
    [([], T "forceReadElemCount"); (T "cnt", T "forceReadLength"); ([], T "forceReadElemLength")];
    [([], T "forceReadElemCount"); ([], T "forceReadLength"); (T "cnt", T "forceReadElemLength")]] /\
  from sq_env [T "d"] true (VSeq 7) /\ from sq_env [T "E"] true (VSeq 2) /\
  informed sq_env true (T "bits.Len", T "forceReadLength") [(T "forceReadLength", 7)] /\
  informed sq_env true (T "cnt", T "forceReadElemCount") [(T "forceReadElemCount", 3)] /\
  prepare_body plain_ge [] sq_fields (sq_member 2) = Ok (join [newline] (map T [
    "field_d().forceReadLength(";
    "    static_cast<std::size_t>(field_bits().field_len().getValue()));"; ""])) /\
  refresh_body plain_ge [] sq_fields (sq_member 4) = Ok (join [newline] (map T [
    "bool updated = false;";
    "do {";
    "    auto expectedValue = static_cast<std::size_t>(field_cnt().getValue());";
    "    auto realValue = field_c().length();";
    "    if (expectedValue == realValue) {";
    "        break;";
    "    }";
    "";
    "    using PrefixValueType = typename std::decay<decltype(field_cnt().getValue())>::type;";
    "    static const auto MaxPrefixValue = static_cast<std::size_t>(std::numeric_limits<PrefixValueType>::max());";
    "    auto maxAllowedValue = std::min(MaxPrefixValue, realValue);";
    "    while (maxAllowedValue < realValue) {";
    "        auto elemLen = field_c().value().back().length();";
    "        field_c().value().pop_back();";
    "        realValue -= elemLen;}";
    "    field_cnt().setValue(realValue);";
    "    updated = true;";
    "} while (false);";
    "";
    "return updated;"; ""])) /\
  elements [1; 1; 1] /\ limit (T "std::uint16_t") 65535.
Proof.
  split; [vm_compute; reflexivity|]. split; [exact sq_typed|]. split; [exact sq_accessible|]. split.
  { unfold sq_fields. repeat (constructor; [split; [vm_compute; reflexivity|word_lit]|]). constructor. }
  split; [vm_compute; reflexivity|]. split; [split; [eapply reach_member; [reflexivity|constructor]|discriminate]|]. split; [split; [eapply reach_member; [reflexivity|constructor]|discriminate]|].
  split. { apply (informed_call sq_env true _ _ _ true _ _ 7 (proj1 sq_len) (proj2 sq_len)). }
  split. { apply (informed_call sq_env true _ _ _ true _ _ 3 (proj1 sq_cnt) (proj2 sq_cnt)). }
  split; [vm_compute; reflexivity|]. split; [vm_compute; reflexivity|]. split.
  - split; [repeat constructor; lia|]. split; cbn; lia.
  - split; [right; exists 16; split; [vm_compute; tauto|unfold unsigned_bits; lia]|].
    intros n [(b & J & K) | (b & J & K)]; cbn [In signed_cpp unsigned_cpp] in J;
      repeat (destruct J as [J | J]; [apply pair_equal_spec in J as [J <-]; try discriminate J; unfold unsigned_bits in K; lia|]); destruct J.
Qed.
(** The number is only limited by the C++ type: a length of three bits in its bitfield is set to nine. *)
Theorem C71_narrow_refuted :
  (exists cb en c s rest vc, nth_error sq_fields 0 = Some (FBitfield cb en (FInt c s :: rest) vc) /\
    c_name cb = T "bits" /\ c_name c = T "Len" /\ i_bitLength s = 3) /\
  exists out code a x, refresh_body plain_ge [] sq_fields (sq_member 2) = Ok out /\ tokens out = tokens (print_code code) /\
    obj sq_env a (VNum (T "std::uint8_t") [] 7) /\ obj sq_env x (VSeq 7) /\
    runs code a x (T "std::uint8_t") 7 (repeat 1 9) 9 (repeat 1 9) true.
Proof.
  split. { unfold sq_fields. do 6 eexists. split; [reflexivity|]. repeat split; reflexivity. }
  assert (find_named (f_name (sq_member 2)) sq_fields = Some (sq_member 2)) as Ff by (vm_compute; reflexivity).
  assert (word (f_name (sq_member 2))) as Wf by word_lit.
  assert (from sq_env [f_name (sq_member 2)] true (VSeq 7)) as Fr.
  { split; [eapply reach_member; [reflexivity|constructor]|discriminate]. }
  assert (prefixes (sq_member 2) = [(T "bits.Len", T "forceReadLength")]) as Ep by (vm_compute; reflexivity).
  destruct (C71_refreshed plain_ge [] sq_fields sq_env (sq_member 2) true (VSeq 7) (T "bits.Len") [T "bits"; T "Len"] true (T "std::uint8_t") [] 7
    sq_typed sq_accessible Ff Wf Fr I Ep (proj1 sq_len) (proj2 sq_len)) as (out & code & a & x & Eo & Et & Oa & Ox & R).
  exists out, code, a, x. repeat (split; [assumption|]).
  assert (forall z, 0 <= z < 256 -> cpp_holds (T "std::uint8_t") z) as U8.
  { intros z Hz. right. exists 8. split; [vm_compute; tauto|]. unfold unsigned_bits. lia. }
  refine (R 7 (repeat 1 9) 255 _ _ _).
  - apply U8. lia.
  - split; [repeat constructor; lia|]. split; cbn; lia.
  - split; [apply U8; lia|].
    intros n [(b & J & K) | (b & J & K)]; cbn [In signed_cpp unsigned_cpp] in J;
      repeat (destruct J as [J | J]; [apply pair_equal_spec in J as [J <-]; try discriminate J; unfold unsigned_bits in K; lia|]); destruct J.
Qed.
Print Assumptions C71_narrow_refuted.
