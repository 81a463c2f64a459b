(** Property C55: <float> fields. *)
From Verif.Model Require Import Base Common Xml Units Field FieldCommon IntField FloatField.
From Verif.Spec Require Import Texts Ints Versions HeaderSpec IntSpec FloatSpec.
From Verif.Proofs Require Import BaseFacts CommonFacts IntFacts RangeFacts IntInv CaseFacts FloatFacts.
From Verif.Props Require Import PInt.
From Coq Require Import ZifyBool ZifyNat Sorting.Sorted.
Local Open Scope string_scope.
Local Open Scope Z_scope.
Local Open Scope list_scope.

(** ** Elements to evaluate; the numbers std::stod is asked for *)
Definition stod_table : list (str * spec_float) := [
  (L "0.5", S754_finite false 4503599627370496 (-53)); (L "1.5", S754_finite false 6755399441055744 (-52)); (L "2", S754_finite false 4503599627370496 (-51));
  (L "-3", S754_finite true 6755399441055744 (-51)); (L "10", S754_finite false 5629499534213120 (-49)); (L "1e39", S754_finite false 6618686220898240 77)].
Definition fl_env : env :=
  mkEnv 10 0 Big (fun _ => None) (fun _ => None) (fun _ => None) (fun _ => None) (fun _ => None) (fun _ => None) (fun _ => None) (fun s => assoc s stod_table) (fun _ => Ok []).
Definition ex_float (attrs : list (string * string)) (children : list node) (old : option float_state) : res float_state :=
  let n := Elem (L "float") (ex_attrs attrs) children in float_parse fl_env (ex_common 0 false) (parseNodeProps n) n old.
Arguments ex_float attrs%string_scope children old.
Arguments ex_child name%string_scope attrs%string_scope.
Lemma fl_env_ok : env_fp_ok fl_env.
Proof.
  split; [|discriminate]. intros s v H. cbn [fl_env e_stod] in H. apply assoc_In in H. cbn [stod_table In] in H.
  repeat (destruct H as [H|H]; [apply pair_equal_spec in H as [_ <-]; vm_compute; reflexivity|]). destruct H.
Qed.
Lemma fl_reach a ch s : ex_float a ch None = Ok s -> float_reachable s.
Proof. intros H. eapply fr_fresh; [apply fl_env_ok| |exact H]. vm_compute. discriminate. Qed.
Lemma fl_again a ch o s : float_reachable o -> ex_float a ch (Some o) = Ok s -> float_reachable s.
Proof. intros Ho H. eapply fr_reuse; [apply fl_env_ok| |exact Ho|exact H]. vm_compute. discriminate. Qed.
Lemma fl_inv s : float_reachable s -> float_inv s.
Proof.
  intros H. induction H as [e c p n s He Hd H|e c p n o s He Hd Ho IH H].
  - apply (float_parse_facts e c p n None s He I Hd H).
  - apply (float_parse_facts e c p n (Some o) s He IH Hd H).
Qed.
Lemma fl_start old : float_start old -> fopt_inv old. Proof. destruct old; [apply fl_inv|auto]. Qed.

(** ** Type, length *)
Theorem C55_length : forall s, float_reachable s -> f_length s = match f_type s with Float32 => 4 | Float64 => 8 end.
Proof. intros s H. apply fl_inv in H. rewrite (finv_length _ H). reflexivity. Qed.
Print Assumptions C55_length.
Theorem C55_type : forall e c p n old s txt, env_fp_ok e -> c_deprecated c <= never -> float_start old -> float_parse e c p n old = Ok s ->
  (find_prop p (L "type") = Some txt -> caseless txt (match f_type s with Float32 => T "float" | Float64 => T "double" end)) /\
  (forall o, old = Some o -> f_type s = f_type o).
Proof.
  intros e c p n old s txt He Hd Ho H. apply fl_start in Ho. destruct (float_parse_facts _ _ _ _ _ _ He Ho Hd H) as (_ & T1 & T2 & _). split.
  - intros E. apply T2 in E. unfold float_type_of in E. destruct (str_eqb (to_lower txt) (L "float")) eqn:E1.
    + injection E as <-. apply caseless_iff; [reflexivity|]. apply str_eqb_eq. exact E1.
    + destruct (str_eqb (to_lower txt) (L "double")) eqn:E2; [|discriminate]. injection E as <-. apply caseless_iff; [reflexivity|]. apply str_eqb_eq. exact E2.
  - intros o ->. exact T1.
Qed.
Print Assumptions C55_type.

(** ** Default value *)
Theorem C55_default_fits : forall s, float_reachable s -> fits (f_type s) (double_of (f_default s)).
Proof. intros s H. apply fl_inv in H. apply (finv_default _ H). Qed.
Print Assumptions C55_default_fits.
Theorem C55_default_text : forall e c p n old s txt, env_fp_ok e -> c_deprecated c <= never -> float_start old -> float_parse e c p n old = Ok s ->
  find_prop p (L "defaultValue") = Some txt -> txt <> [] -> float_text e (fvalues (f_specials s)) true txt (f_default s).
Proof.
  intros e c p n old s txt He Hd Ho H E N. apply fl_start in Ho. destruct (float_parse_facts _ _ _ _ _ _ He Ho Hd H) as (_ & _ & _ & _ & D & _).
  unfold get_prop in D. rewrite E in D. destruct txt; [contradiction|exact D].
Qed.
Print Assumptions C55_default_text.
Theorem C55_default_inherited : forall e c p n old s, env_fp_ok e -> c_deprecated c <= never -> float_start old -> float_parse e c p n old = Ok s ->
  find_prop p (L "defaultValue") = None -> double_of (f_default s) = match old with Some o => double_of (f_default o) | None => DNum 0 end.
Proof.
  intros e c p n old s He Hd Ho H E. apply fl_start in Ho. destruct (float_parse_facts _ _ _ _ _ _ He Ho Hd H) as (_ & _ & _ & _ & D & _).
  unfold get_prop in D. rewrite E in D. rewrite D. destruct old; reflexivity.
Qed.
Print Assumptions C55_default_inherited.

(** ** Special values *)
Theorem C55_special_names_unique : forall s, float_reachable s -> NoDup (map fst (f_specials s)) /\ Forall (fun x => identifier (fst x)) (f_specials s).
Proof.
  intros s H. apply fl_inv in H. destruct (finv_sps _ H) as [N F]. split; [exact N|].
  eapply Forall_impl; [|exact F]. intros x (X & _). apply parseIsValidName_spec. exact X.
Qed.
Print Assumptions C55_special_names_unique.
Theorem C55_special_values_fit : forall s, float_reachable s -> Forall (fun x => fits (f_type s) (double_of (fs_value (snd x)))) (f_specials s).
Proof. intros s H. apply fl_inv in H. destruct (finv_sps _ H) as [_ F]. eapply Forall_impl; [|exact F]. intros x (_ & _ & X). exact X. Qed.
Print Assumptions C55_special_values_fit.
Theorem C55_specials_as_written : forall e c p n old s, env_fp_ok e -> c_deprecated c <= never -> float_start old -> float_parse e c p n old = Ok s ->
  fspecial_elements e (f_type s) (c_since c) (c_deprecated c) (match old with Some o => f_specials o | None => [] end)
     (parseGetChildrenNamed n (L "special")) (f_specials s).
Proof.
  intros e c p n old s He Hd Ho H. apply fl_start in Ho. destruct (float_parse_facts _ _ _ _ _ _ He Ho Hd H) as (_ & _ & _ & (new & _ & X & _) & _). exact X.
Qed.
Print Assumptions C55_specials_as_written.
(** missing: special values of a reused field are not looked at *)
Theorem C55_special_values_unique_partial : forall e c p n s, env_fp_ok e -> c_deprecated c <= never -> float_parse e c p n None = Ok s ->
  f_nonUniqueSpecials s = false -> NoDup (map (fun x => double_of (fs_value (snd x))) (f_specials s)).
Proof.
  intros e c p n s He Hd H N. destruct (float_parse_facts e c p n None s He I Hd H) as (_ & _ & _ & (new & E & _ & U) & _).
  cbn [fget app] in E. rewrite E. specialize (U N). unfold kvals, K in U. rewrite <- (map_map (fun x => double_of (fs_value (snd x))) key) in U. eapply NoDup_map_inv. exact U.
Qed.
Print Assumptions C55_special_values_unique_partial.
Theorem C55_special_values_unique_refuted : exists s, float_reachable s /\ f_nonUniqueSpecials s = false /\
  ~ NoDup (map (fun x => double_of (fs_value (snd x))) (f_specials s)).
Proof.
  assert (exists o, ex_float [("type", "float")] [ex_child "special" [("name", "A"); ("val", "nan")]] None = Ok o /\
    exists s, ex_float [] [ex_child "special" [("name", "B"); ("val", "NaN")]] (Some o) = Ok s /\ f_nonUniqueSpecials s = false /\
      map (fun x => double_of (fs_value (snd x))) (f_specials s) = [DNaN; DNaN]) as (o & Eo & s & Es & N & E).
  { by_eval Eo. by_eval Es. split; reflexivity. }
  exists s. split; [eapply fl_again; [eapply fl_reach; exact Eo|exact Es]|]. split; [exact N|]. rewrite E.
  intros D. inversion D as [|? ? X _]. apply X. left. reflexivity.
Qed.
Print Assumptions C55_special_values_unique_refuted.
Example C55_ex_special : exists s, ex_float [("type", "float"); ("defaultValue", "Tiny")]
    [ex_child "special" [("name", "Tiny"); ("val", "0.5"); ("sinceVersion", "2")]; ex_child "special" [("name", "None"); ("val", "NAN")]] None = Ok s /\ float_reachable s /\
  map (fun x => double_of (fs_value (snd x))) (f_specials s) = [DNum (2 ^ 1073); DNaN] /\ double_of (f_default s) = DNum (2 ^ 1073).
Proof. by_eval E. split; [exact (fl_reach _ _ _ E)|]. split; vm_compute; reflexivity. Qed.
Example C55_ex_reject : ex_float [("type", "float"); ("defaultValue", "1e39")] [] None = Err /\
  is_ok (ex_float [("type", "double"); ("defaultValue", "1e39")] [] None) = true /\
  ex_float [("type", "float")] [ex_child "special" [("name", "A"); ("val", "2")]; ex_child "special" [("name", "B"); ("val", "2")]] None = Err.
Proof. vm_compute. auto. Qed.

(** ** Valid ranges *)
(** [d] is a range of the reused field or written in this element *)
Definition fsource (e : env) (c : common) (n : node) (old : option float_state) (s : float_state) (d : drange) : Prop :=
  (exists o r, old = Some o /\ In r (f_ranges o) /\ d = drange_of r) \/ fwritten e c n s d.
Lemma fwritten_iff e c n s d : fwritten e c n s d <-> exists r, fattr e (f_type s) (f_specials s) (c_since c) (c_deprecated c) n r d \/
  fchild e (f_type s) (f_specials s) (c_since c) (c_deprecated c) n r d.
Proof.
  assert (Nm : forall nm txt lo hi, fstated e (f_type s) (fvalues (f_specials s)) nm txt lo hi -> exists r, nm = pname r).
  { intros nm txt lo hi H. destruct H; [exists FFullRange|exists (FRangeP ValidRange)|exists (FRangeP ValidValue)|exists (FRangeP ValidMin)|exists (FRangeP ValidMax)]; reflexivity. }
  split.
  - intros [nm txt lo hi F S|nm ch txt lo hi sv dv q A1 A2 A3 A4 A5 A6 A7 A8 A9].
    + destruct (Nm _ _ _ _ S) as (r & ->). exists r. left. exists txt, lo, hi. auto.
    + destruct (Nm _ _ _ _ A5) as (r & ->). exists r. right. exists ch, txt, lo, hi, sv, dv, q. auto 12.
  - intros (r & [(txt & lo & hi & A & B & ->)|(ch & txt & lo & hi & sv & dv & q & A1 & A2 & A3 & A4 & A5 & A6 & A7 & A8 & A9 & ->)]); [eapply fw_attr|eapply fw_child]; eassumption.
Qed.
(** a double is valid in a version exactly if it was said to be *)
Theorem C55_ranges_as_written : forall e c p n old s, env_fp_ok e -> c_deprecated c <= never -> float_start old -> float_parse e c p n old = Ok s ->
  forall x w, binary64 x ->
    ((exists r, In r (f_ranges s) /\ inside (drange_of r) (double_of x) /\ fr_since r <= w < fr_depr r) <->
     (exists d, fsource e c n old s d /\ inside d (double_of x) /\ dr_since d <= w < dr_depr d)).
Proof.
  intros e c p n old s He Hd Ho H x w Hx. apply fl_start in Ho. destruct (float_parse_facts _ _ _ _ _ _ He Ho Hd H) as (_ & _ & _ & _ & _ & (new & E & B & Nw)).
  destruct (fnormalise_facts _ B) as (_ & _ & _ & C). specialize (C x w Hx). rewrite <- E in C. unfold fcovered, fcovers in C.
  transitivity (exists r, In r (f_ranges s) /\ inside (drange_of r) (double_of x) /\ fr_since r <= w < fr_depr r); [reflexivity|].
  rewrite C. clear C. split.
  - intros (r & Hr & I & V). exists (drange_of r). split; [|auto]. apply in_app_iff in Hr as [Hr|Hr].
    + left. destruct old as [o|]; [|destruct Hr]. exists o, r. auto.
    + right. apply fwritten_iff. apply Nw. eauto.
  - intros (d & [(o & r & -> & Hr & ->)|W] & I & V).
    + exists r. split; [apply in_app_iff; left; exact Hr|]. auto.
    + apply fwritten_iff in W. apply Nw in W as (r & Hr & <-). exists r. split; [apply in_app_iff; right; exact Hr|]. auto.
Qed.
Print Assumptions C55_ranges_as_written.
(** in the order of the minimal, then maximal values, NaN last *)
Definition precedes (a b : dbl) : Prop := dlt a b \/ a <> DNaN /\ b = DNaN.
Theorem C55_ranges_sorted : forall s, float_reachable s ->
  StronglySorted (fun a b => ~ precedes (double_of (fr_min b)) (double_of (fr_min a)) /\
    (double_of (fr_min a) = double_of (fr_min b) -> ~ precedes (double_of (fr_max b)) (double_of (fr_max a)))) (f_ranges s).
Proof.
  intros s H. apply fl_inv in H. eapply (SS_impl _ _ b64r); [|apply (finv_ranges _ H)|apply (finv_sorted _ H)].
  assert (P : forall a b, binary64 a -> binary64 b -> (precedes (double_of a) (double_of b) <-> K a < K b)).
  { intros a b Ha Hb. unfold precedes, dlt. rewrite (dle_K _ _ Ha Hb), (dle_K _ _ Hb Ha), (nan_K _ Ha), (nan_K _ Hb). pose proof (K_bound _ Ha). pose proof (K_bound _ Hb). lia. }
  intros a b [A1 A2] [B1 B2] N. unfold fwlt in N. rewrite !P, (double_K _ _ A1 B1) by assumption. lia.
Qed.
Print Assumptions C55_ranges_sorted.
Definition finite_bounds (r : frange) : Prop := exists a b, double_of (fr_min r) = DNum a /\ double_of (fr_max r) = DNum b.
(** ranges of numbers of the same versions have nothing in common *)
Theorem C55_ranges_disjoint : forall e c p n old s, env_fp_ok e -> c_deprecated c <= never -> float_start old -> float_parse e c p n old = Ok s ->
  forall i j a b, nth_error (f_ranges s) i = Some a -> nth_error (f_ranges s) j = Some b -> i <> j ->
    finite_bounds a -> finite_bounds b -> fr_since a = fr_since b -> fr_depr a = fr_depr b ->
    dlt (double_of (fr_max a)) (double_of (fr_min b)) \/ dlt (double_of (fr_max b)) (double_of (fr_min a)).
Proof.
  intros e c p n old s He Hd Ho H i j a b Hi Hj Hij (a1 & a2 & Fa1 & Fa2) (b1 & b2 & Fb1 & Fb2) E1 E2. apply fl_start in Ho.
  destruct (float_parse_facts _ _ _ _ _ _ He Ho Hd H) as (Inv & _ & _ & _ & _ & (new & E & B & _)).
  destruct (fnormalise_facts _ B) as (_ & _ & S & _). rewrite <- E in S. pose proof (finv_ranges _ Inv) as R. rewrite Forall_forall in R.
  destruct (R a (nth_error_In _ _ Hi)) as [A1 A2], (R b (nth_error_In _ _ Hj)) as [B1 B2].
  apply (FOP_nth fseparate) with (i := i) (j := j) (a := a) (b := b) in S; auto.
  2: { unfold fseparate. intros x y X F1 F2 G1 G2. destruct (X F2 F1 ltac:(congruence) ltac:(congruence)); auto. }
  assert (finite_range a) by (split; eapply num_K; eassumption). assert (finite_range b) by (split; eapply num_K; eassumption).
  unfold dlt. rewrite (dle_K _ _ A2 B1), (dle_K _ _ B1 A2), (dle_K _ _ B2 A1), (dle_K _ _ A1 B2). unfold finite_range in *. destruct S; auto; lia.
Qed.
Print Assumptions C55_ranges_disjoint.
Definition half := DNum (2 ^ 1073).
Definition two := DNum (2 ^ 1075).
Definition ten := DNum (10 * 2 ^ 1074).
Example C55_ex : exists s, ex_float [("type", "double"); ("validRange", "[0.5, 1.5]"); ("validMin", "10")]
    [ex_child "validRange" [("value", "[1.5, 2]")]; ex_child "validValue" [("value", "nan")]; ex_child "validMax" [("value", "-3"); ("sinceVersion", "4")]] None = Ok s /\ float_reachable s /\
  map drange_of (f_ranges s) = [mkDR (DNum (- float_limit Float64)) (DNum (-3 * 2 ^ 1074)) 4 never; mkDR half two 0 never; mkDR ten (DNum (float_limit Float64)) 0 never; mkDR DNaN DNaN 0 never].
Proof. by_eval E. split; [exact (fl_reach _ _ _ E)|]. vm_compute. reflexivity. Qed.
(** the bounds given by validRange are not compared with the limits of the type *)
Theorem C55_range_bounds_refuted : exists s, ex_float [("type", "float"); ("validRange", "[0.5, 1e39]")] [] None = Ok s /\ float_reachable s /\
  exists r z, In r (f_ranges s) /\ double_of (fr_max r) = DNum z /\ float_limit (f_type s) < z.
Proof.
  by_eval E. split; [exact (fl_reach _ _ _ E)|]. eexists _, _. split; [left; reflexivity|]. split; [reflexivity|]. vm_compute. reflexivity.
Qed.
Print Assumptions C55_range_bounds_refuted.
