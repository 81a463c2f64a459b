(** C69, C70: default values, valid values and extents of generated string, data and list classes. *)
From Coq Require Import Lia Sorted ZifyBool ZifyNat.
From Verif.Model Require Import Base Common Xml Units Field FieldCommon Composite GenUtil GenComms CommsInt CommsSeq.
From Verif.Spec Require Import Texts Ints Versions IntSpec XmlSpec FieldSpec Ex LengthSpec GenSpec HeaderSpec DslSpec AttrSpec CppSpec TokenSpec SeqCode.
From Verif.Proofs Require Import BaseFacts CommonFacts IntFacts XmlFacts RangeFacts FieldFacts ExFacts LengthFacts TreeFacts AttrFacts AttrFacts2 ExtentFacts GenFacts TemplateFacts CommsIntFacts CommsOptFacts CondTextFacts TokenFacts FieldInv SeqFacts.
From Verif.Props Require Import PTexts PInt PGen PComms PTemplate PAttr.
Local Open Scope string_scope. Local Open Scope Z_scope. Local Open Scope list_scope.

(** ** C69 *)
(** the values which are valid in some version which the peer may have *)
Definition valid_in_some {A} (ge : gen_env) (l : list (valid_value A)) (a : A) : Prop :=
  exists x r, In x l /\ vv_value x = a /\ supported (ge_ver ge) r /\ present_at (vv_since x) (vv_depr x) true r.

(** The code of valid() of a string field accepts exactly the values which the schema lists for some supported version. *)
(** Missing: values with quotes, backslashes or newlines, and the case that none of the values exists any more; see below *)
Theorem C69_string_valid_partial : forall ge f c s pre, accepted f -> part_of (FString c s pre) f ->
  gv_min_remote (ge_ver ge) <= genSchemaVersion (ge_ver ge) ->
  (forall v, In v (st_valid s) -> Forall ordinary (vv_value v)) -> (exists v, valid_in_some ge (st_valid s) v) ->
  exists body table, string_valid_body ge s = Ok body /\ string_table body table /\
    table_accepts char_rank table (valid_in_some ge (st_valid s)).
Proof.
  intros ge f c s pre A P Hm Ho (v0 & Hv). pose proof (all_part_of _ _ _ (accepted_seq _ A) P) as [S F]. cbn [seq_ok] in S, F.
  pose proof (exists_values ge (st_valid s) Hm F) as EV. fold (@valid_in_some txt) in EV.
  set (lits := map (fun v => quote ++ vv_value v ++ quote) (filter (vv_exists ge) (st_valid s))).
  assert (Fo : Forall (fun v => Forall ordinary (vv_value v)) (filter (vv_exists ge) (st_valid s))) by (apply Forall_forall; intros v I; apply filter_In in I as [I _]; exact (Ho v I)).
  apply EV in Hv. assert (Nf : filter (vv_exists ge) (st_valid s) <> []) by (intros Z; rewrite Z in Hv; destruct Hv).
  exists (string_valid_code lits), (map vv_value (filter (vv_exists ge) (st_valid s))). split; [|split].
  - unfold string_valid_body. destruct (is_nil (st_valid s)) eqn:En; [destruct (st_valid s); [contradiction Nf; reflexivity|discriminate En]|].
    apply string_valid_text.
    + unfold lits. apply Forall_map. eapply Forall_impl; [|exact Fo]. intros v Q. apply ordinary_literal. exact Q.
    + unfold lits. destruct (filter (vv_exists ge) (st_valid s)) as [|v l]; [contradiction|]. apply join_nonnil. discriminate.
  - exists lits. split; [unfold lits; intros Z; apply map_eq_nil in Z; contradiction|]. split; [reflexivity|]. unfold lits. clear - Fo.
    induction Fo as [|v l Q Fo IH]; constructor; [apply ordinary_literal; exact Q|exact IH].
  - intros v. destruct (sorted_table char_rank str_ltb char_rank_inj text_order (map vv_value (filter (vv_exists ge) (st_valid s))) (SSorted_map _ _ _ (SSorted_filter _ _ _ S)) v) as (b & L & E).
    exists b. split; [exact L|]. rewrite E. apply EV.
Qed.
Print Assumptions C69_string_valid_partial.
(** A field without such a list has no code of its own *)
Theorem C69_no_list : forall ge s d, st_valid s = [] -> d_valid d = [] -> string_valid_body ge s = Ok [] /\ data_valid_body ge d = Ok [].
Proof. intros ge s d E1 E2. unfold string_valid_body, data_valid_body. rewrite E1, E2. split; reflexivity. Qed.
Print Assumptions C69_no_list.
(** The same for data. *)
(** Missing: empty values and the case that none of the values exists any more; see below *)
Theorem C69_data_valid_partial : forall ge f c s pre, accepted f -> part_of (FData c s pre) f ->
  gv_min_remote (ge_ver ge) <= genSchemaVersion (ge_ver ge) -> Z.of_nat (length (d_valid s)) < 2 ^ 64 ->
  (forall v, In v (d_valid s) -> vv_value v <> [] /\ Forall (fun b => 0 <= b < 256) (vv_value v)) -> (exists v, valid_in_some ge (d_valid s) v) ->
  exists body table, data_valid_body ge s = Ok body /\ data_table body table /\
    table_accepts (fun b => b) table (valid_in_some ge (d_valid s)).
Proof.
  intros ge f c s pre A P Hm Hl Ho (v0 & Hv). pose proof (all_part_of _ _ _ (accepted_seq _ A) P) as [S F]. cbn [seq_ok] in S, F.
  pose proof (exists_values ge (d_valid s) Hm F) as EV. fold (@valid_in_some (list Z)) in EV. apply EV in Hv.
  destruct (data_body ge s) as (body & E & Tb).
  - intros Z. rewrite Z in Hv. destruct Hv.
  - exact Hl.
  - apply in_map_iff in Hv as (x & _ & I). apply filter_In in I as [I E]. eauto.
  - apply Forall_forall. intros v I. apply filter_In in I as [I _]. exact (Ho v I).
  - exists body, (map vv_value (filter (vv_exists ge) (d_valid s))). split; [exact E|]. split; [exact Tb|]. intros v.
    destruct (sorted_table (fun b => b) bytes_ltb (fun a b H => H) bytes_order (map vv_value (filter (vv_exists ge) (d_valid s))) (SSorted_map _ _ _ (SSorted_filter _ _ _ S)) v) as (b & L & Eb).
    exists b. split; [exact L|]. rewrite Eb. apply EV.
Qed.
Print Assumptions C69_data_valid_partial.

(** The constructor sets the default value of the schema, and does nothing if that is empty. *)
Lemma ordinary_flat v : Forall ordinary v -> flat v.
Proof. intros F. destruct (ordinary_literal v F) as [_ H]. unfold flat in *. intros I. apply H. apply in_or_app. right. apply in_or_app. left. exact I. Qed.
Theorem C69_string_default_partial : forall fl e x n c s pre v, x_depr x <= never -> field_parse fl e x n = Ok (FString c s pre) ->
  supplied n (T "defaultValue") [v] -> supplied n (T "defaultValidValue") [] -> v <> [] -> Forall ordinary v -> (forall r, v <> "^"%char :: r) ->
  exists l, string_init s = Ok (set_string l) /\ stands_for_string l v.
Proof.
  intros fl e x n c s pre v D H S S2 N O C. destruct (string_attributes _ _ _ _ _ _ _ D H) as (old & _ & _ & G). destruct (stg_values _ _ _ _ _ G) as [(d & G1 & G2) _ _].
  assert (Ed : st_default s = d) by (destruct G2 as [w S3 _|_ E]; [pose proof (supplied_det _ _ _ _ S2 S3); discriminate|exact E]).
  assert (Ev : d = v).
  { destruct G1 as [w S3 R|S3 _]; [|pose proof (supplied_det _ _ _ _ S S3); discriminate]. pose proof (supplied_det _ _ _ _ S S3) as [= <-].
    destruct R as [v _|r a _ _|k r _|v _]; [reflexivity|exfalso; apply (C r); reflexivity|exfalso; inversion O as [|q qs (_ & Q & _) _]; subst; apply Q; reflexivity|reflexivity]. }
  exists (quote_char :: v ++ [quote_char]). split; [|apply (ordinary_literal v O)].
  unfold string_init. rewrite Ed, Ev. destruct (is_nil v) eqn:En; [destruct v; [contradiction|discriminate En]|]. apply string_init_text; [exact (ordinary_flat v O)|exact N].
Qed.
Print Assumptions C69_string_default_partial.
Lemma hex_bounds w l : hex_pairs w l -> Forall (fun b => 0 <= b < 256) l.
Proof.
  induction 1 as [|a b x y v l X Y H IH]; constructor; [|exact IH]. destruct X as [X _], Y as [Y _]. lia.
Qed.
Theorem C69_data_default : forall fl e x n c s pre v w l, x_depr x <= never -> field_parse fl e x n = Ok (FData c s pre) ->
  supplied n (T "defaultValue") [v] -> supplied n (T "defaultValidValue") [] -> without_spaces v w -> hex_pairs w l -> l <> [] ->
  exists code bytes, data_init s = Ok code /\ tokens code = tokens (set_bytes bytes) /\ byte_array bytes l.
Proof.
  intros fl e x n c s pre v w l D H S S2 W X N. destruct (data_attributes _ _ _ _ _ _ _ D H) as (old & _ & _ & G). destruct (dg_values _ _ _ _ _ G) as [(d & G1 & G2) _ _].
  assert (Ed : d_default s = d) by (destruct G2 as [u S3 _|_ E]; [pose proof (supplied_det _ _ _ _ S2 S3); discriminate|exact E]).
  assert (Ev : d = l).
  { destruct G1 as [u S3 R|S3 _]; [|pose proof (supplied_det _ _ _ _ S S3); discriminate]. pose proof (supplied_det _ _ _ _ S S3) as [= <-].
    assert (R2 : bytes_read e v l) by exact (br_hex _ _ _ _ W X). apply bytes_read_spec in R, R2. rewrite R in R2. injection R2 as ->. reflexivity. }
  rewrite <- Ev, <- Ed. apply data_init_text; rewrite Ed, Ev; [exact N|exact (hex_bounds _ _ X)].
Qed.
Print Assumptions C69_data_default.
(** Nothing is set if there is no default *)
Theorem C69_no_default : forall s d, st_default s = [] -> d_default d = [] -> string_init s = Ok [] /\ data_init d = Ok [].
Proof. intros s d E1 E2. unfold string_init, data_init. rewrite E1, E2. split; reflexivity. Qed.
Print Assumptions C69_no_default.

(** ** C70 *)
(** The options of the class of a string, data or list field which have to do with its extent are exactly those which the schema asks for,
    with its numbers and fields; the class is derived from the one of COMMS with these options. *)
Theorem C70_string : forall x ns scope f c s pre, accepted f -> part_of (FString c s pre) f ->
  exists opts t, string_opts x ns scope c s pre = Ok opts /\
    extent_options opts [option_if (st_length s <> 0) (fixed_size (st_length s));
      attached_option "SequenceSerLengthFieldPrefix" (genClassName (c_name c)) (fs_global x) class_of scope pre;
      option_if (st_zeroSuffix s = true) (zero_suffix ns);
      option_if (st_detached s <> []) (eq (plain_option (T "SequenceLengthForcingEnabled")))] /\
    string_base x ns scope c s pre = Ok t /\ base_class "comms::field::String" ns [] opts t.
Proof.
  intros x ns sc f c s pre A P. pose proof (all_part_of _ _ _ (accepted_scalars _ A) P) as B. cbn in B.
  destruct (string_options x ns sc c s pre B) as (o & E & X). exists o.
  destruct (string_base_text ns o (string_opts_nonnil _ _ _ _ _ _ _ E)) as (t & Et & Bt). exists t.
  split; [exact E|]. split; [exact X|]. split; [|exact Bt]. unfold string_base. rewrite E. exact Et.
Qed.
Print Assumptions C70_string.
Theorem C70_data : forall x ns scope f c s pre, accepted f -> part_of (FData c s pre) f ->
  exists opts t, data_opts x scope c s pre = opts /\
    extent_options opts [option_if (d_length s <> 0) (fixed_size (d_length s));
      attached_option "SequenceSerLengthFieldPrefix" (genClassName (c_name c)) (fs_global x) class_of scope pre;
      option_if (d_detached s <> []) (eq (plain_option (T "SequenceLengthForcingEnabled")))] /\
    data_base x ns scope c s pre = Ok t /\ base_class "comms::field::ArrayList" ns [T "std::uint8_t"] opts t.
Proof.
  intros x ns sc f c s pre A P. pose proof (all_part_of _ _ _ (accepted_scalars _ A) P) as B. cbn in B.
  exists (data_opts x sc c s pre). destruct (data_base_text ns _ (data_opts_nonnil x sc c s pre)) as (t & Et & Bt). exists t.
  split; [reflexivity|]. split; [exact (data_options x sc c s pre B)|]. split; [exact Et|exact Bt].
Qed.
Print Assumptions C70_data.
(** the elements of a list: a class among the members or the class of a global field *)
Theorem C70_list : forall x ns scope f c s own elem cnt len elen term, accepted f -> part_of (FList c s (own, elem) cnt len elen term) f ->
  exists opts el t, list_opts x scope c s cnt len elen term = opts /\
    extent_options opts [option_if (l_count s <> 0) (fixed_size (l_count s));
      attached_option "SequenceSizeFieldPrefix" (genClassName (c_name c)) (fs_global x) class_of scope cnt;
      attached_option "SequenceSerLengthFieldPrefix" (genClassName (c_name c)) (fs_global x) class_of scope len;
      attached_option (if l_elemFixedLength s then "SequenceElemFixedSerLengthFieldPrefix" else "SequenceElemSerLengthFieldPrefix")
        (genClassName (c_name c)) (fs_global x) class_of scope elen;
      attached_option "SequenceTerminationFieldSuffix" (genClassName (c_name c)) (fs_global x) class_of scope term;
      option_if (l_detCount s <> []) (eq (plain_option (T "SequenceSizeForcingEnabled")));
      option_if (l_detLength s <> []) (eq (plain_option (T "SequenceLengthForcingEnabled")));
      option_if (l_detElemLength s <> []) (eq (plain_option (T "SequenceElemLengthForcingEnabled")))] /\
    (if own : bool then attached_class (genClassName (c_name c)) (fs_global x) (class_of elem) el else global_class (scope elem) el) /\
    list_base x ns scope c s (own, elem) cnt len elen term = Ok t /\ base_class "comms::field::ArrayList" ns [el] opts t.
Proof.
  intros x ns sc f c s own elem cnt len elen term A P. pose proof (all_part_of _ _ _ (accepted_scalars _ A) P) as B. cbn in B.
  exists (list_opts x sc c s cnt len elen term), (attached_type (c_name c) (fs_global x) sc [] (own, elem)).
  destruct (list_base_text ns (attached_type (c_name c) (fs_global x) sc [] (own, elem)) _ (list_opts_nonnil x sc c s cnt len elen term)) as (t & Et & Bt). exists t.
  split; [reflexivity|]. split; [exact (list_options x sc c s cnt len elen term B)|]. split; [|split; [exact Et|exact Bt]].
  unfold attached_type. cbn [fst snd]. destruct own; [reflexivity|left]. rewrite app_nil_r. reflexivity.
Qed.
Print Assumptions C70_list.
(** A string with an own extent has at most one such option, unless another member of the message or bundle is its length (C44). *)
Theorem C70_one_extent : forall x ns scope f c s pre opts, accepted f -> part_of (FString c s pre) f -> st_detached s = [] ->
  string_opts x ns scope c s pre = Ok opts -> exists others l, opts = others ++ l /\ Forall (fun o => ~ sequence_option o) others /\ (length l <= 1)%nat.
Proof.
  intros x ns sc f c s pre opts A P D E. destruct (C70_string x ns sc f c s pre A P) as (o & t & E' & (others & ls & -> & No & F) & _). rewrite E in E'. apply Ok_inj in E'. subst opts.
  exists others, (concat ls). split; [reflexivity|]. split; [exact No|]. pose proof (C44_one_extent_partial _ _ A P) as [O _]. cbn [one_extent] in O.
  inversion F as [|p1 l1 ps1 q1 F1 R1]; subst. inversion R1 as [|p2 l2 ps2 q2 F2 R2]; subst. inversion R2 as [|p3 l3 ps3 q3 F3 R3]; subst. inversion R3 as [|p4 l4 ps4 q4 F4 R4]; subst. inversion R4; subst.
  cbn [concat]. rewrite !app_length. cbn [length].
  assert (L4 : l4 = []) by (destruct F4 as [(Q & _)|(_ & Q)]; [contradiction|exact Q]). subst l4.
  assert (L1 : (st_length s <> 0 /\ length l1 = 1%nat) \/ l1 = []) by (destruct F1 as [(Q & z & -> & _)|(_ & ->)]; auto).
  assert (L2 : (pre <> None /\ length l2 = 1%nat) \/ l2 = []) by (destruct F2 as [(Q & z & -> & _)|(_ & ->)]; auto).
  assert (L3 : (st_zeroSuffix s = true /\ length l3 = 1%nat) \/ l3 = []) by (destruct F3 as [(Q & z & -> & _)|(_ & ->)]; auto).
  destruct L1 as [[Q1 ->]| ->], L2 as [[Q2 ->]| ->], L3 as [[Q3 ->]| ->]; cbn [length]; try lia; exfalso.
  all: first [discriminate (O 0%nat 1%nat _ _ eq_refl eq_refl Q1 Q2)|discriminate (O 0%nat 2%nat _ _ eq_refl eq_refl Q1 Q3)|discriminate (O 1%nat 2%nat _ _ eq_refl eq_refl Q2 Q3)].
Qed.
Print Assumptions C70_one_extent.
(** From the schema: length="z" gives the option with z. *)
Theorem C70_length : forall fl e x n c s pre v z y ns scope opts, x_depr x <= never -> field_parse fl e x n = Ok (FString c s pre) ->
  supplied n (T "length") [v] -> denotes v z -> 0 < z < 2 ^ 32 -> string_opts y ns scope c s pre = Ok opts ->
  exists a, In (an_option (T "SequenceFixedSize") [a]) opts /\ constant a z.
Proof.
  intros fl e x n c s pre v z y ns sc opts D H S Dz B E. destruct (string_attributes _ _ _ _ _ _ _ D H) as (old & _ & _ & G).
  destruct (stg_length _ _ _ _ _ G) as [w S3 R|S3 _]; [|pose proof (supplied_det _ _ _ _ S S3); discriminate]. pose proof (supplied_det _ _ _ _ S S3) as [= <-].
  assert (Ez : st_length s = z).
  { destruct R as [(u & Du & _ & ->) _]. pose proof (denotes_det _ _ _ Dz Du) as <-. apply Z.mod_small. lia. }
  unfold string_opts in E. rewrite fixed_app, att_app in E. apply bind_Ok in E as (l & E & E2). apply Ok_inj in E2. subst opts. rewrite force_app.
  destruct (zero_spec ns (st_zeroSuffix s) ((comms_def_options y c ++ fixed_list (st_length s)) ++ att_list (L "SequenceSerLengthFieldPrefix") (c_name c) (fs_global y) sc pre)) as (l2 & E2 & _).
  rewrite E2 in E. apply Ok_inj in E. subst l. rewrite Ez in *.
  destruct (fixed_spec z) as [(_ & o & Eo & a & -> & Ca)|(N & _)]; [unfold two32; lia| |lia].
  exists a. split; [|exact Ca]. rewrite Eo. rewrite !in_app_iff. left. left. left. right. left. reflexivity.
Qed.
Print Assumptions C70_length.

(** ** Examples *)
Definition ex_str : field := got_field (ex_global [] (el "string" [("name", "S"); ("defaultValue", "b"); ("length", "5")]
  [el "validValue" [("value", "b")] []; el "validValue" [("value", "a"); ("sinceVersion", "2")] []; el "validValue" [("value", "c"); ("sinceVersion", "9")] []])).
Lemma ex_str_accepted : accepted ex_str. Proof. unfold ex_str. ex_acc. Qed.
Definition ex_dat : field := got_field (ex_global [] ex_data).
Lemma ex_dat_accepted : accepted ex_dat. Proof. unfold ex_dat. ex_acc. Qed.
Definition ex_versions : gen_env := mkGE (mkGV 5 None 0) true.
Example C69_ex : exists c s pre body table, ex_str = FString c s pre /\ map vv_value (st_valid s) = [T "a"; T "b"; T "c"] /\ length (st_valid s) = 3%nat /\
  string_valid_body ex_versions s = Ok body /\ string_table body table /\ table = [T "a"; T "b"] /\
  looked_up (lex_lt char_rank) table (T "a") true /\ looked_up (lex_lt char_rank) table (T "c") false.
Proof.
  do 4 eexists. exists [T "a"; T "b"]. split; [vm_compute; reflexivity|]. split; [vm_compute; reflexivity|]. split; [vm_compute; reflexivity|]. split; [vm_compute; reflexivity|].
  split; [exists [T """a"""; T """b"""]; split; [discriminate|]; split; [vm_compute; reflexivity|]|].
  - assert (Q : forall c, c <> quote_char -> c <> backslash -> c <> newline -> stands_for_string [quote_char; c; quote_char] [c]).
    { intros c A B D. exists [c]. split; [reflexivity|]. apply lc_char; [exact A|exact B|exact D|constructor]. }
    apply Forall2_cons; [apply (Q "a"%char); discriminate|]. apply Forall2_cons; [apply (Q "b"%char); discriminate|]. apply Forall2_nil.
  - split; [reflexivity|]. assert (LT : forall a b, lex_lt char_rank a b <-> str_ltb a b = true) by (intros a b; symmetry; apply (lt_spec char_rank str_ltb text_order)).
    split; [apply (lu_intro _ _ _ 0%nat)|apply (lu_intro _ _ _ 2%nat)].
    + cbn; lia.
    + intros [|[|j]] x E; [| |destruct j; discriminate E]; injection E as <-; rewrite LT; (split; [intros Q; vm_compute in Q; discriminate|lia]).
    + split; reflexivity.
    + cbn; lia.
    + intros [|[|j]] x E; [| |destruct j; discriminate E]; injection E as <-; rewrite LT; (split; [lia|intros _; vm_compute; reflexivity]).
    + split; discriminate.
Qed.
(** the premises of the theorems *)
Definition seq_valid_t (f : field) : list (valid_value txt) := match f with FString _ s _ => st_valid s | _ => [] end.
Definition seq_valid_d (f : field) : list (valid_value (list Z)) := match f with FData _ s _ => d_valid s | _ => [] end.
Example C69_ex_premises : accepted ex_str /\ accepted ex_dat /\ gv_min_remote (ge_ver ex_versions) <= genSchemaVersion (ge_ver ex_versions) /\
  (forall v, In v (seq_valid_t ex_str) -> Forall ordinary (vv_value v)) /\ valid_in_some ex_versions (seq_valid_t ex_str) (T "a") /\
  (forall v, In v (seq_valid_d ex_dat) -> vv_value v <> [] /\ Forall (fun b => 0 <= b < 256) (vv_value v)) /\ valid_in_some ex_versions (seq_valid_d ex_dat) [1; 2] /\
  ~ valid_in_some ex_versions (seq_valid_t ex_str) (T "c").
Proof.
  split; [exact ex_str_accepted|]. split; [exact ex_dat_accepted|]. split; [vm_compute; discriminate|].
  assert (E1 : seq_valid_t ex_str = [mkVV (T "a") 2 never; mkVV (T "b") 0 never; mkVV (T "c") 9 never]) by (vm_compute; reflexivity).
  assert (E2 : seq_valid_d ex_dat = [mkVV [1] 3 never; mkVV [1; 2] 0 never; mkVV [255] 0 never]) by (vm_compute; reflexivity). rewrite E1, E2.
  split; [|split; [|split; [|split]]].
  - intros v [<-|[<-|[<-|[]]]]; (constructor; [|constructor]); repeat split; vm_compute; discriminate.
  - exists (mkVV (T "a") 2 never), 3. split; [left; reflexivity|]. split; [reflexivity|]. unfold supported, present_at, never; cbn. lia.
  - intros v [<-|[<-|[<-|[]]]]; (split; [discriminate|]); repeat constructor; lia.
  - exists (mkVV [1; 2] 0 never), 3. split; [right; left; reflexivity|]. split; [reflexivity|]. unfold supported, present_at, never; cbn. lia.
  - intros (v & r & [<-|[<-|[<-|[]]]] & E & S & Q); try discriminate E. unfold supported, present_at in *. cbn in *. lia.
Qed.
Example C69_ex_data : exists c s pre body table, ex_dat = FData c s pre /\ data_valid_body ex_versions s = Ok body /\ data_table body table /\ length (d_valid s) = 3%nat.
Proof.
  destruct (C69_data_valid_partial ex_versions ex_dat (f_common ex_dat) (match ex_dat with FData _ s _ => s | _ => mkData [] 0 [] [] end) None) as (body & table & E & Tb & _).
  - exact ex_dat_accepted.
  - replace (FData _ _ _) with ex_dat by (vm_compute; reflexivity). constructor.
  - vm_compute. discriminate.
  - vm_compute. reflexivity.
  - destruct C69_ex_premises as (_ & _ & _ & _ & _ & Q & _). exact Q.
  - destruct C69_ex_premises as (_ & _ & _ & _ & _ & _ & Q & _). eexists. exact Q.
  - do 5 eexists. split; [|split; [exact E|split; [exact Tb|vm_compute; reflexivity]]]. vm_compute. reflexivity.
Qed.
Definition st_of (f : field) : string_state := match f with FString _ s _ => s | _ => mkString [] [] 0 [] [] false end.
Definition pre_of (f : field) : option (bool * field) := match f with FString _ _ p => p | _ => None end.
Definition d_of (f : field) : data_state := match f with FData _ s _ => s | _ => mkData [] 0 [] [] end.
Example C70_ex : ex_str = FString (f_common ex_str) (st_of ex_str) None /\
  string_opts plain_fs (T "prot") (fun _ => []) (f_common ex_str) (st_of ex_str) None = Ok [T "TExtraOpts..."; an_option (T "SequenceFixedSize") [T "5"]] /\
  ex_prefixed = FString (f_common ex_prefixed) (st_of ex_prefixed) (pre_of ex_prefixed) /\
  string_opts plain_fs (T "prot") (fun _ => []) (f_common ex_prefixed) (st_of ex_prefixed) (pre_of ex_prefixed) =
    Ok [T "TExtraOpts..."; an_option (T "SequenceSerLengthFieldPrefix") [T "typename SMembers<TOpt>::P"]].
Proof. repeat split; vm_compute; reflexivity. Qed.

(** ** Where C69 fails *)
(** A quote in the text ends the literal: what is written is not one literal (likewise for the valid values) *)
Definition ex_quote : field := got_field (ex_global [] (el "string" [("name", "S"); ("defaultValue", "a""b")] [])).
Lemma no_quote s v w : literal_chars s v -> s <> "a"%char :: quote_char :: w.
Proof.
  intros H E. destruct H as [|c s v N1 N2 N3 H|c d s v _ H]; [discriminate E| |discriminate E]. injection E as -> ->. inversion H as [|c s v2 N _ _ H2|]; subst. apply N. reflexivity.
Qed.
Theorem C69_quote_refuted : accepted ex_quote /\ exists l, string_init (st_of ex_quote) = Ok (set_string l) /\ st_default (st_of ex_quote) = T "a""b" /\ forall v, ~ stands_for_string l v.
Proof.
  split; [unfold ex_quote; ex_acc|]. exists (T """a""b"""). split; [vm_compute; reflexivity|]. split; [vm_compute; reflexivity|]. intros v (s & E & H).
  destruct s as [|c s]; [discriminate E|]. destruct s as [|d s]; [discriminate E|]. injection E as <- <- E.
  exact (no_quote _ _ _ H eq_refl).
Qed.
Print Assumptions C69_quote_refuted.
(** A backslash starts an escape: the class sets another value than the schema says *)
Definition ex_backslash : field := got_field (ex_global [] (el "string" [("name", "S"); ("defaultValue", "a\n")] [])).
Lemma lc_inv c s w : literal_chars (c :: s) w -> c <> backslash -> exists v, w = c :: v /\ literal_chars s v.
Proof.
  intros H N. remember (c :: s) as t eqn:E. destruct H as [|c' s' v' N1 N2 N3 H|c' d s' v' I H]; [discriminate E| |injection E as E _; symmetry in E; contradiction].
  injection E as -> ->. eauto.
Qed.
Lemma lc_inv_esc c s w : literal_chars (backslash :: c :: s) w -> exists d v, In (c, d) escape_chars /\ w = d :: v /\ literal_chars s v.
Proof.
  intros H. remember (backslash :: c :: s) as t eqn:E. destruct H as [|c' s' v' N1 N2 N3 H|c' d s' v' I H]; [discriminate E|injection E as E _; contradiction|].
  injection E as -> ->. eauto.
Qed.
Lemma lc_inv_end w : literal_chars [] w -> w = [].
Proof. intros H. remember (@nil ascii) as t eqn:E. destruct H; [reflexivity|discriminate E|discriminate E]. Qed.
Theorem C69_backslash_refuted : accepted ex_backslash /\ exists l, string_init (st_of ex_backslash) = Ok (set_string l) /\ st_default (st_of ex_backslash) = T "a\n" /\
  stands_for_string l ["a"%char; newline] /\ ~ stands_for_string l (T "a\n").
Proof.
  split; [unfold ex_backslash; ex_acc|]. exists (T """a\n"""). split; [vm_compute; reflexivity|]. split; [vm_compute; reflexivity|]. split.
  - exists (T "a\n"). split; [reflexivity|]. apply lc_char; [discriminate|discriminate|discriminate|]. apply (lc_escape "n"%char); [|constructor].
    apply (nth_error_In _ 7). reflexivity.
  - intros (s & E & H). assert (Es : s = T "a\n") by (change (T """a\n""") with (quote_char :: T "a\n" ++ [quote_char]) in E; injection E as E; exact (app_inv_tail [quote_char] s (T "a\n") (eq_sym E))).
    subst s. apply lc_inv in H as (v & E1 & H); [|discriminate]. injection E1 as <-. apply lc_inv_esc in H as (d & v2 & _ & E2 & H). injection E2 as _ <-.
    apply lc_inv_end in H. discriminate H.
Qed.
Print Assumptions C69_backslash_refuted.
(** All the values are deprecated before the oldest supported version: the table is empty, which is no C++ *)
Definition ex_old : field := got_field (ex_global [] (el "string" [("name", "S")] [el "validValue" [("value", "a"); ("deprecated", "2")] []])).
Definition new_only : gen_env := mkGE (mkGV 5 None 3) true.
Theorem C69_no_values_refuted : accepted ex_old /\ (exists body, string_valid_body new_only (st_of ex_old) = Ok body /\ tokens body = tokens (string_valid_code [])) /\
  gv_min_remote (ge_ver new_only) <= genSchemaVersion (ge_ver new_only).
Proof. split; [unfold ex_old; ex_acc|]. split; [eexists; split; vm_compute; reflexivity|vm_compute; discriminate]. Qed.
Print Assumptions C69_no_values_refuted.
(** The array of a value without bytes is empty, which is no C++ *)
Definition ex_blank : field := got_field (ex_global [] (el "data" [("name", "D"); ("validValue", "")] [])).
Theorem C69_no_bytes_refuted : accepted ex_blank /\ map vv_value (d_valid (d_of ex_blank)) = [[]] /\
  exists body, data_valid_body ex_versions (d_of ex_blank) = Ok body /\ tokens body = tokens (data_valid_code [(T "ValidValue0", [])] [T "ValidValue0"]).
Proof.
  split; [unfold ex_blank; ex_acc|]. split; [vm_compute; reflexivity|]. eexists. split; vm_compute; reflexivity.
Qed.
Print Assumptions C69_no_bytes_refuted.
