(** C76: the verifier of constraint systems as a whole, down to the value of the committed message that FRI vouches for. *)
Require Import Coq.ZArith.ZArith Coq.Arith.Arith Coq.Lists.List Coq.Bool.Bool Coq.Sorting.Permutation Lia.
From Verif Require Import Base.Fld Base.Lists Base.Sums Math.MleSpec Math.ArithModel Math.ArithProofs Math.ArithProps Field.TowerProofs Field.Examples
  Transparent.TransparentModel Protocol.Proto Protocol.Soundness Ntt.NttSpec Ntt.SubspaceModel Field.TowerModel Ntt.SubspaceProps
  Sumcheck.SumcheckModel Sumcheck.SumcheckProps Sumcheck.ZerocheckModel Sumcheck.ZerocheckProps
  RingSwitch.TensorModel RingSwitch.TowerExt RingSwitch.SwitchModel RingSwitch.SwitchSpec RingSwitch.SwitchProofs RingSwitch.SwitchEqProps RingSwitch.SwitchSound
  Piop.MetaModel Piop.MetaProps Piop.PiopModel Piop.PiopLayout Piop.PiopSound Piop.PiopProps
  Evalcheck.OracleModel Evalcheck.EvalModel Evalcheck.EvalSpec Evalcheck.OracleProps Evalcheck.EvalProofs Evalcheck.EvalSound
  Evalcheck.GreedyWork Evalcheck.GreedyStages Evalcheck.GreedyProps
  Cs.ChannelModel Cs.ChannelProps Cs.BalanceAlg Cs.FlushModel Cs.FlushProofs Cs.FlushProps
  Cs.VerifyModel Cs.VerifyZero Cs.VerifyProps Cs.TotalModel.
Import ListNotations.
Local Close Scope N_scope.
Local Close Scope Z_scope.
Local Open Scope nat_scope.
Local Opaque usize_bits.

(* -------------------------------------------------------------------- *)
(** * Specification *)
Section Spec.
  Variable L D : nat.
  Notation F := (TF L).
  Variable levels : list nat.

  (** The numbers of committed columns by their number of packed variables. *)
  Definition column_counts (os : oset L) : list nat := oracle_counts (map (commit_vars L) os).

  (** The committed message [W] holds the columns: unpacking the part of [W] with the number of column [id] gives [V id].  The number
      is that of make_oracle_commit_meta (C36). *)
  Definition message_holds (os : oset L) (W : nat -> F) (V : values L) : Prop :=
    forall m index id (o : oracle L) k X, make_oracle_commit_meta (map (commit_vars L) os) = Ok (m, index) ->
      nth_error os id = Some (Some o) -> o_variant o = Committed -> nth_error index id = Some (Some k) -> tower_exts L levels (L - o_level o) = Some X ->
      forall y, y < 2 ^ o_nvars o -> V id y = unpacked F X (committed_multilin (column_counts os) W (n_packed_vars L (o_nvars o) (o_level o)) k) y.

  (** What the columns [V] violate, with the error of the reductions. *)
  Inductive violation (bc : nat -> option F) (domain_bits : nat) (os : oset L) (V : values L) (sys : system L) (sizes : list nat) (bs : list (boundary F)) : nat -> Prop :=
  | broken_constraint t c x v :
      (forall e b, sub_with_dim bc e = Ok b -> lin_indep b) -> (forall e, e <= domain_bits -> exists b, sub_with_dim bc e = Ok b) ->
      Nat.max D (2 ^ domain_bits) <= 2 ^ usize_bits ->
      In t (sys_tables L sys) -> nth (tc_table L t) sizes 0 <> 0 -> In (c, None) (tc_constraints L t) ->
      x < 2 ^ (tc_log_values_per_row L t + log2_ceil (nth (tc_table L t) sizes 0)) ->
      ArithModel.evaluate c (map (fun id => V id x) (tc_ids L t)) = Some v -> v <> f0 ->
      violation bc domain_bits os V sys sizes bs (zero_error L D (map (sized L sizes) (live_tables L sys sizes)) domain_bits)
  | unbalanced_channel ch x wd :
      let es := events F (wit L os V) sizes (sys_flushes L sys) bs in
      flushed L (sys_flushes L sys) sizes ch -> (forall e, In e es -> ev_channel F e = ch -> length (ev_values F e) = wd) ->
      sent F Push ch x es <> sent F Pull ch x es ->
      violation bc domain_bits os V sys sizes bs (length (on_channel F ch es) * (wd - 1) + (Nat.max (weight F Push ch es) (weight F Pull ch es) +
           gpa_error L os (sys_flushes L sys) (live_non_zero L os sys) sizes))
  | zero_value id o x :
      In id (sys_non_zero L sys) -> nth_error os id = Some (Some o) -> x < 2 ^ o_nvars o -> V id x = f0 ->
      violation bc domain_bits os V sys sizes bs (gpa_error L os (sys_flushes L sys) (live_non_zero L os sys) sizes).
End Spec.

(* -------------------------------------------------------------------- *)
(** * Ring switching: the shape of the reduced claims *)
Section Shape.
  Variable F : field.
  Variable L : nat.
  Variable E : forall kappa, option (ext F kappa).

  Definition reduced_shape (n : nat) (red : reduced F) : Prop :=
    length (rc_claims F red) = n /\ forall a, In a (rc_transparents F red) -> 2 ^ ei_kappa F a <= length (ei_coeffs F a).

  Lemma eqinds_coeffs ss coeffs : forall ds mixing eqs, make_eqinds F E ss coeffs ds mixing = Ok eqs -> forall a, In a eqs -> 2 ^ ei_kappa F a <= length (ei_coeffs F a).
  Proof.
    induction ds as [|d ds IH]; intros [|m mixing] eqs H a Ha; cbn [make_eqinds] in H; try (injection H as <-; destruct Ha).
    destruct (make_eqind F E ss coeffs d m) as [b| |] eqn:Eb; cbn [rbind] in H; try discriminate.
    destruct (make_eqinds F E ss coeffs ds mixing) as [r| |] eqn:Er; cbn [rbind] in H; try discriminate. injection H as <-. destruct Ha as [<-|Ha]; [|now apply (IH mixing r)].
    unfold make_eqind in Eb. destruct (nth_error ss (snd (fst d))) as [[z kappa]|]; [|discriminate]. destruct (E kappa) as [X|]; [|discriminate]. unfold eqind_new in Eb.
    destruct (Nat.ltb_spec (length coeffs) (2 ^ kappa)); [discriminate|]. injection Eb as <-. exact H.
  Qed.
  Lemma claims_length ss : forall ds i evals cl, make_claims F ss i ds evals = Ok cl -> length evals = length ds -> length cl = length ds.
  Proof.
    induction ds as [|d ds IH]; intros i [|e evals] cl H HL; cbn [make_claims] in H; try (injection H as <-; reflexivity); try discriminate.
    destruct (nth_error ss (snd (fst d))) as [[z k]|]; [|discriminate]. destruct (make_claims F ss (S i) ds evals) as [r| |] eqn:Er; cbn [rbind] in H; try discriminate. injection H as <-.
    cbn [length] in *. f_equal. apply (IH (S i) evals); [exact Er|lia].
  Qed.

  Lemma rs_shape s : sound (reduced_shape (length (claim_descs F s))) 0 (rs_verify F E s).
  Proof.
    unfold rs_verify. apply (sound_bind F (fun _ => True) _ 0 0); [apply sound_true; auto|]. intros r1 _. apply sound_bind0. intros mixing _. apply sound_bind0. intros expected _.
    apply (sound_bind F (fun _ => True) _ 0 0); [apply sound_true; auto|]. intros ts _. apply (sound_bind F (fun _ => True) _ 0 0); [apply sound_true; auto|]. intros r2 _. apply sound_bind0. intros coeffs _.
    apply sound_bind_read. intros evals HL. apply sound_bind0. intros mixed _. apply sound_bind0. intros [] _. apply sound_bind0. intros eqs EQ. apply sound_bind0. intros cl EC.
    constructor. split; cbn [rc_claims rc_transparents]; [exact (claims_length _ _ _ _ _ EC HL)|exact (eqinds_coeffs _ _ _ _ _ EQ)].
  Qed.
End Shape.

(* -------------------------------------------------------------------- *)
Section Total.
  Variable L D : nat.
  Notation F := (TF L).
  Variable levels : list nat.
  Variable os : oset L.
  Variable W : nat -> F.
  Variable V : values L.
  Hypothesis HOLD : message_holds L levels os W V.
  Notation counts := (column_counts L os).
  Notation total := (total_vars (meta_new counts)).

  (** the number of variables of the committed multilinear [k] *)
  Definition vars_of (k : nat) : nat :=
    match find (fun v => (below counts v <=? k) && (k <? below counts (S v))) (seq 0 (length counts)) with Some v => v | None => 0 end.
  Lemma vars_of_ok v k : v < length counts -> below counts v <= k < below counts (S v) -> vars_of k = v.
  Proof.
    intros Hv HB. unfold vars_of. destruct (find _ _) as [u|] eqn:EF.
    - apply find_some in EF as [_ B]. apply andb_true_iff in B as [B1 B2]. apply Nat.leb_le in B1. apply Nat.ltb_lt in B2.
      destruct (Nat.lt_trichotomy u v) as [Lt|[->|Lt]]; auto; [pose proof (below_mono counts (S u) v Lt)|pose proof (below_mono counts (S v) u Lt)]; lia.
    - exfalso. assert (IN : In v (seq 0 (length counts))) by (apply in_seq; lia). pose proof (find_none _ _ EF v IN) as H. cbv beta in H. apply andb_false_iff in H as [H|H]; [apply Nat.leb_gt in H|apply Nat.ltb_ge in H]; lia.
  Qed.
  Definition packed (k : nat) : nat -> F := committed_multilin counts W (vars_of k) k.

  Lemma meta_eq : exists index, make_oracle_commit_meta (map (commit_vars L) os) = Ok (meta_new counts, index) /\ length index = length os /\
    forall id (o : oracle L), nth_error os id = Some (Some o) -> o_variant o = Committed ->
      exists k, nth_error index id = Some (Some k) /\ vars_of k = n_packed_vars L (o_nvars o) (o_level o).
  Proof.
    destruct (make_meta_ok (map (commit_vars L) os)) as (index & E1 & LI & _). destruct (oracle_commit_meta_correct (map (commit_vars L) os)) as (m' & index' & E2 & _ & _ & _ & H & _).
    fold (column_counts L os) in E1. rewrite E1 in E2. injection E2 as <- <-. exists index. split; [exact E1|]. split; [now rewrite LI, map_length|].
    intros id o Eo Ev. destruct (H id (n_packed_vars L (o_nvars o) (o_level o))) as (k & lo & hi & Ek & ER & B).
    { rewrite nth_error_map, Eo. cbn [option_map commit_vars]. unfold is_committed. now rewrite Ev. }
    exists k. split; [exact Ek|]. apply range_below in ER as (Hv & -> & ->). now apply vars_of_ok.
  Qed.

  Variables (arities : list nat) (dl : nat) (fri : list (list F) -> list F -> vproto F F).

  (** the claims of the returned set are about the columns of the caller *)
  Definition about_columns (r : list (EvalModel.claim L) * oset L) : Prop :=
    (exists ext, snd r = os ++ ext) /\
    forall c, In c (fst r) -> exists o : oracle L, nth_error os (c_id c) = Some (Some o) /\ o_variant o = Committed /\ length (c_point c) = o_nvars o.

  Lemma switch_true index r c : make_oracle_commit_meta (map (commit_vars L) os) = Ok (meta_new counts, index) -> length index = length os -> about_columns r -> In c (fst r) ->
    SwitchSpec.claim_true F L (tower_exts L levels) packed (map (switch_oracle L) (snd r)) (fun id => nth id index None) (switch_claim L c) -> EvalSpec.claim_true V c.
  Proof.
    intros EM LI [(ext & EX) AB] Hc (o & k & X & Eo & Ek & EE & T). destruct (AB c Hc) as (o' & Eo' & Ev & Ln). cbn [switch_claim ec_id ec_point ec_eval] in *.
    destruct meta_eq as (index' & EM' & _ & HV). rewrite EM in EM'. injection EM' as <-. destruct (HV _ _ Eo' Ev) as (k' & Ek' & VK).
    rewrite EX, map_app, nth_error_app1, nth_error_map, Eo' in Eo by (rewrite map_length; apply nth_error_Some; congruence). cbn [option_map switch_oracle] in Eo. injection Eo as <-.
    cbn [SwitchModel.o_level] in EE. rewrite (nth_error_nth _ _ None Ek') in Ek. injection Ek as ->.
    unfold EvalSpec.claim_true. rewrite <- T. apply mle_ext. intros y Hy. rewrite Ln in Hy. unfold packed. rewrite VK. now apply (HOLD (meta_new counts) index).
  Qed.

  Definition table (red : reduced F) (i : nat) : nat -> F := match nth_error (rc_transparents F red) i with Some a => eqind_value F a | None => fun _ => f0 end.

  Lemma reduced_all red ds n : reduced_shape F n red ->
    make_sumcheck_claim_descs F (meta_new counts) (map tr_n (map (eq_transparent L) (rc_transparents F red))) (map (sum_claim L) (rc_claims F red)) = Ok ds ->
    (forall c, In c (map (sum_claim L) (rc_claims F red)) -> piop_claim_true F counts W (table red) c) -> all_reduced_true F packed red.
  Proof.
    intros [_ SH] ED AT c Hc. apply descs_inv in ED as [FA _]. rewrite Forall_forall in FA. pose proof (in_map (sum_claim L) _ _ Hc) as Hs.
    specialize (FA _ Hs) as [(lo & hi & ER & B) ET]. specialize (AT _ Hs). cbn [sum_claim pc_n_vars pc_committed pc_transparent] in *.
    apply range_below in ER as (Hv & -> & ->). rewrite map_map, nth_error_map in ET. destruct (nth_error (rc_transparents F red) (sc_transparent F c)) as [a|] eqn:Ea; [|discriminate]. cbn [option_map eq_transparent tr_n] in ET. injection ET as EL.
    exists a, (eqind_value F a). split; [exact Ea|]. split.
    - intros x Hx. rewrite (eqind_evaluate_correct F (TF_char2 L)) by (apply SH; eapply nth_error_In; eauto). rewrite vertex_length, EL, Nat.eqb_refl. f_equal. now apply mle_on_cube.
    - symmetry. etransitivity; [exact AT|]. cbn [sum_claim pc_n_vars pc_committed pc_transparent]. apply sumn_ext. intros x Hx. unfold packed, table. rewrite (vars_of_ok _ _ Hv B), Ea. reflexivity.
  Qed.

  Lemma committed_caught B index r : make_oracle_commit_meta (map (commit_vars L) os) = Ok (meta_new counts, index) -> length index = length os ->
    about_columns r -> (exists c, In c (fst r) /\ ~ EvalSpec.claim_true V c) ->
    sound (fun out => ~ (fst out <= B /\ snd (snd out) = mle W (fst (snd out)))) ((log2_ceil B + L) + (B + 3 * total))
      (verify_committed L levels arities dl fri (meta_new counts) index r).
  Proof.
    intros EM LI AB (c0 & Hc0 & NT). unfold verify_committed. apply sound_bind0. intros s ES.
    destruct (Nat.le_gt_cases (length (fst r)) B) as [LB|GB].
    - pose proof (ring_switch_sound F (TF_char2 L) L (tower_exts L levels) _ _ _ s packed ES) as RS. rewrite map_length in RS.
      pose proof (sound0_and F _ _ _ _ (rs_shape F (tower_exts L levels) s) RS) as BOTH.
      assert (LC : length (claim_descs F s) = length (fst r)).
      { destruct (system_new_spec _ _ _ _ _ _ ES) as (_ & _ & sorted & PS & Ls & _). rewrite <- Ls, (Permutation_length PS). apply map_length. }
      rewrite LC in BOTH.
      eapply (sound_mono F _ _ ((log2_ceil (length (fst r)) + L) + (length (fst r) + 3 * total))); [| |intros a Ha; exact Ha].
      2: { pose proof (log2_ceil_bound (length (fst r)) (log2_ceil B)) as MB. pose proof (log2_ceil_le B). lia. }
      apply (sound_bind F _ _ _ _ _ _ BOTH). clear BOTH RS. intros red [SH RT].
      assert (LN : length (map (sum_claim L) (rc_claims F red)) = length (fst r)) by (rewrite map_length; apply SH).
      destruct (make_sumcheck_claim_descs F (meta_new counts) (map tr_n (map (eq_transparent L) (rc_transparents F red))) (map (sum_claim L) (rc_claims F red))) as [ds| |] eqn:ED.
      2, 3: unfold piop_verify; rewrite ED; cbn [vbind]; constructor.
      destruct (Exists_dec (fun c => ~ piop_claim_true F counts W (table red) c) (map (sum_claim L) (rc_claims F red))) as [EX|NE].
      { intros c. unfold piop_claim_true. match goal with |- {~ ?a = ?b} + {_} => destruct (feqb_spec F a b) as [e|e]; [right; auto|left; exact e] end. }
      + apply Exists_exists in EX. rewrite <- LN, <- (Nat.add_0_r (_ + 3 * total)).
        assert (TS : forall i t, nth_error (map (eq_transparent L) (rc_transparents F red)) i = Some t -> transparent_is F t (table red i)).
        { intros i t Et. rewrite nth_error_map in Et. unfold table. destruct (nth_error (rc_transparents F red) i) as [a|] eqn:Ea; [|discriminate]. injection Et as <-.
          intros p Lp. cbn [eq_transparent tr_n tr_eval] in *. rewrite (eqind_evaluate_correct F (TF_char2 L)) by (apply SH; eapply nth_error_In; eauto). now rewrite Lp, Nat.eqb_refl. }
        apply (sound_bind F _ _ _ _ _ _ (piop_sound F arities dl fri counts _ _ W (table red) TS EX)). intros out MIS. constructor. cbn [fst snd]. tauto.
      + exfalso. apply NT. apply (switch_true index r c0 EM LI AB Hc0), RT.
        * apply (reduced_all red ds (length (fst r)) SH ED). intros c Hc. unfold piop_claim_true in *.
          match goal with |- ?a = ?b => destruct (feqb_spec F a b) as [e|e]; [exact e|] end. exfalso. apply NE, Exists_exists. eauto.
        * now apply in_map.
    - apply (sound_bind F (fun _ => True) _ 0 _); [apply sound_true; auto|]. intros red _. apply (sound_bind F (fun _ => True) _ 0 _); [apply sound_true; auto|]. intros out _. constructor. cbn [fst snd]. lia.
  Qed.

  Variable u32 : F -> nat.
  Variable bc : nat -> option F.
  Variable domain_bits fuel : nat.

  Theorem violation_caught B e sys sizes bs : VerifyProps.system_ok L D os V sys sizes -> violation L D bc domain_bits os V sys sizes bs e ->
    sound (fun out => ~ (fst out <= B /\ snd (snd out) = mle W (fst (snd out)))) ((e + claims_error L D os sys sizes) + ((log2_ceil B + L) + (B + 3 * total)))
      (verify_system L levels u32 bc domain_bits arities dl fri fuel sys os sizes bs).
  Proof.
    intros OK VIO. unfold verify_system. destruct meta_eq as (index & EM & LI & _). rewrite EM. cbn [vbind fst snd].
    assert (RED : sound (GreedyProps.refuted_claim L V os) (e + claims_error L D os sys sizes) (verify_reductions L u32 bc domain_bits fuel sys os sizes bs)).
    { destruct VIO as [t c x v B1 B2 B3 Ht NZ Hc Hx EV NE|ch x wd es FL WD NE|id o x HI EO Hx HZ].
      - apply (broken_caught L D u32 bc domain_bits os V sys sizes fuel OK bs t B1 B2 B3); [|exists c, x, v; auto].
        apply filter_In. split; [exact Ht|]. unfold live, table_size. apply negb_true_iff, Nat.eqb_neq, NZ.
      - apply (phase_caught L D u32 bc domain_bits os V sys sizes fuel OK bs). intros CK.
        apply (unbalanced_sound L os V (sys_flushes L sys) (live_non_zero L os sys) (sys_specs L sys) sizes bs (sys_channel_count L sys) ch x wd); auto.
        now apply (system_phase L D os V sys sizes).
      - apply (phase_caught L D u32 bc domain_bits os V sys sizes fuel OK bs). intros CK.
        apply (zero_sound L os V (sys_flushes L sys) (live_non_zero L os sys) (sys_specs L sys) sizes bs (sys_channel_count L sys) id x); auto.
        + now apply (system_phase L D os V sys sizes).
        + apply filter_In. split; [exact HI|]. unfold has_rows. now rewrite EO.
        + unfold n_vars_or0, oget. now rewrite EO. }
    pose proof (sound0_and F _ _ _ _ (returned L D u32 bc domain_bits os V sys sizes fuel OK bs) RED) as BOTH.
    apply (sound_bind F _ _ _ _ _ _ BOTH). intros r [[(ext & EX & _) AB] (c & o & Hc & _ & _ & NT)].
    apply committed_caught; auto; [split; eauto|eauto].
  Qed.
End Total.

(** C76: the columns held by the committed message violate the constraint system.  Then, against any strategy of the prover, of the
    vectors of [k] challenges from any set [S] at most the stated fraction of [1 / |S|] make the verifier accept with at most [B]
    evaluation claims while the value obtained from FRI is that of the message. *)
Theorem constraint_system_soundness L D levels u32 bc domain_bits arities dl fri fuel (os : oset L) (W : nat -> TF L) V sys sizes bs B e :
  VerifyProps.system_ok L D os V sys sizes -> message_holds L levels os W V -> violation L D bc domain_bits os V sys sizes bs e ->
  forall (strategy : list (TF L) -> nat -> list (TF L)) (S : list (TF L)) (k : nat) (T : list (list (TF L))), NoDup S -> NoDup T ->
    (forall cs, In cs T -> length cs = k /\ incl cs S /\ exists n chal value,
       vplay (verify_system L levels u32 bc domain_bits arities dl fri fuel sys os sizes bs) strategy [] 0 cs = Ok (n, (chal, value)) /\
       n <= B /\ value = mle W chal) ->
    length T * length S <=
      ((e + claims_error L D os sys sizes) + ((log2_ceil B + L) + (B + 3 * total_vars (meta_new (column_counts L os))))) * length S ^ k.
Proof.
  intros OK HW VIO strategy S k T NS NT HT.
  apply (of_sound (TF L) (fun out : nat * (list (TF L) * TF L) => fst out <= B /\ snd (snd out) = mle W (fst (snd out))) _ _
    (violation_caught L D levels os W V HW arities dl fri u32 bc domain_bits fuel B e sys sizes bs OK VIO) strategy S k T NS NT).
  intros cs Hcs. destruct (HT cs Hcs) as (A1 & A2 & n & chal & value & A3 & A4 & A5). split; [exact A1|]. split; [exact A2|].
  exists (n, (chal, value)). auto.
Qed.

(* -------------------------------------------------------------------- *)
(** * Hypotheses *)
(** The example of VerifyProps.v.  Column 0 has four values of the large field, column 1 has four bits, in one packed element; column 1
    is number 0 and comes last in the message. *)
Definition W16 : nat -> X16 := fun x => nth x (map el [4; 6; 5; 7; 13]%N) f0.

Fact message_nonvacuous : message_holds 2 [0; 2] os16 W16 V16 /\ column_counts 2 os16 = [1; 0; 1] /\ total_vars (meta_new (column_counts 2 os16)) = 3.
Proof.
  split; [|split; reflexivity]. intros m index id o k X EM Eo Ev Ek EX y Hy.
  assert (EI : index = [Some 1; Some 0]) by (revert EM; vm_compute; congruence). subst index.
  destruct id as [|[|id]]; [| |destruct id; discriminate]; cbn in Eo; injection Eo as <-; cbn in Ek; injection Ek as <-; cbn [o_level o_nvars] in *.
  - unfold tower_exts in EX. cbn in EX. injection EX as <-. do 4 (destruct y as [|y]; [vm_compute; reflexivity|]). cbn in Hy. lia.
  - unfold tower_exts in EX. cbn in EX. injection EX as <-. do 4 (destruct y as [|y]; [vm_compute; reflexivity|]). cbn in Hy. lia.
Qed.

(** The product of the two columns is not zero on row 0, the selector is zero on row 1, and the pushed tuples are not pulled; the total
    error for two claims. *)
Fact violation_nonvacuous :
  let vio := violation 2 3 (tower_basis_checked 2) 4 os16 V16 vsys16 [3] [bd16 Pull [el 4; el 7]] in
  vio 37 /\ vio 18 /\ vio 23 /\ VerifyProps.system_ok 2 3 os16 V16 vsys16 [3] /\
  ((37 + claims_error 2 3 os16 vsys16 [3]) + ((log2_ceil 2 + 2) + (2 + 3 * total_vars (meta_new (column_counts 2 os16))))) = 60.
Proof.
  cbn zeta. destruct violations_nonvacuous as ((v & Ev & NZ) & ZV & (FL & NE & WD) & B1 & B2 & ERR). apply pair_equal_spec in ERR as [ERR E3]. apply pair_equal_spec in ERR as [E1 E2].
  split; [|split; [|split; [|split; [exact system_ok_nonvacuous|rewrite E2; reflexivity]]]].
  - rewrite <- E1. apply (broken_constraint 2 3 _ _ _ _ _ _ _ (mkTc 2 0 0 [0; 1] [(ArithModel.cmul (ArithModel.cvar 0) (ArithModel.cvar 1), None)]) (ArithModel.cmul (ArithModel.cvar 0) (ArithModel.cvar 1)) 0 v); auto.
    + apply Nat.le_trans with (2 ^ 4); [cbn; lia|]. apply Nat.pow_le_mono_r; [lia|]. Transparent usize_bits. unfold usize_bits. lia.
    + now left.
    + discriminate.
    + now left.
    + cbn. lia.
  - rewrite <- E3. change [push16] with (sys_flushes 2 vsys16). apply (zero_value 2 3 _ _ _ _ _ _ _ 1 (mkOracle 2 0 Committed) 1); auto; [right; now left|cbn; lia].
  - replace 23 with (3 * (2 - 1) + (Nat.max 2 1 + gpa_error 2 os16 [push16] (live_non_zero 2 os16 vsys16) [3])) by (rewrite E3; reflexivity).
    apply (unbalanced_channel 2 3 (tower_basis_checked 2) 4 os16 V16 vsys16 [3] [bd16 Pull [el 4; el 7]] 0 [el 6; el 7] 2); auto.
Qed.
