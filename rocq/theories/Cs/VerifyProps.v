(** C74: the reductions of the constraint-system verifier, from the flushes, the columns that must not vanish and the
    constraints of the tables to evaluation claims about committed columns. *)
Require Import Coq.ZArith.ZArith Coq.Arith.Arith Coq.Lists.List Coq.Bool.Bool Coq.Sorting.Permutation Lia.
From Verif Require Import Base.Fld Base.Lists Base.Sums Math.MleSpec Math.ArithModel Math.ArithProofs Math.ArithProps Field.TowerProofs Field.Examples
  Transparent.TransparentModel Protocol.Proto Protocol.Soundness Ntt.NttSpec Ntt.SubspaceModel
  Sumcheck.SumcheckModel Sumcheck.SumcheckProps Sumcheck.ZerocheckModel Gkr.ExpModel Field.TowerModel Ntt.SubspaceProps
  Evalcheck.OracleModel Evalcheck.EvalModel Evalcheck.EvalSpec Evalcheck.OracleProps Evalcheck.EvalProofs Evalcheck.EvalExtend Evalcheck.EvalSound
  Evalcheck.GreedyModel Evalcheck.GreedyComp Evalcheck.GreedyWork Evalcheck.GreedySets Evalcheck.GreedyStages Evalcheck.GreedyProps
  Compute.CircuitPolyModel Compute.CircuitPolyProps Cs.ChannelModel Cs.ChannelProps Cs.BalanceAlg Cs.FlushModel Cs.FlushProofs Cs.FlushProps
  Cs.VerifyModel Cs.VerifyComp Cs.VerifyFlush Cs.VerifyReduce Cs.VerifyExp Cs.VerifyZero.
Import ListNotations.
Local Close Scope N_scope.
Local Close Scope Z_scope.
Local Open Scope nat_scope.
Local Opaque usize_bits.

(* -------------------------------------------------------------------- *)
(** * Specification *)
Section Spec.
  Variable L : nat.
  Notation F := (TF L).
  (** a bound on the degrees of the compositions *)
  Variable D : nat.
  Variable os : oset L.
  Variable V : values L.
  Variable sys : system L.
  Variable sizes : list nat.

  (** what remains after the columns and the tables without rows are dropped *)
  Definition has_rows (id : nat) : bool := match nth_error os id with Some (Some _) => true | _ => false end.
  Definition live_non_zero : list nat := filter has_rows (sys_non_zero L sys).
  Definition live_exponents : list (exp_spec F) := filter (fun e => has_rows (xp_result e)) (sys_exponents L sys).
  Definition live_tables : list (table_constraints L) := filter (live L sizes) (sys_tables L sys).

  (** the bits and the base of an exponentiation are columns of one size *)
  Definition exp_columns (e : exp_spec F) : Prop :=
    exp_sized F e /\ exists n, forall id, In id (xp_bits e) \/ xp_base e = BaseOracle id -> exists o, present L os id o /\ o_nvars o = n.

  (** The columns of a flush have the size of the flush and its selectors are zero or one; the constraints of a table are
      about columns of its size, with circuits that are compiled correctly to polynomials of degree at most [D]. *)
  Definition system_ok : Prop :=
    oset_ok os /\ consistent os V /\ composable_set D os /\
    (forall f, In f (sys_flushes L sys) -> nonempty L sizes f = true -> sized_flush L os sizes f /\ length (fl_selectors F f) + 2 <= D /\
       forall id x, In id (fl_selectors F f) -> x < 2 ^ flush_vars L sizes f -> V id x = f0 \/ V id x = f1) /\
    (forall t, In t live_tables -> sized_ok L D os (sized L sizes t)) /\
    (forall e, In e live_exponents -> exp_columns e).

  (** the error of the evaluation claims: those about the flush oracles, about the columns that must not vanish, about the
      columns of the constraints, and about the operands of the exponentiations *)
  Definition claims_error : nat :=
    flushes_work L D os (sys_flushes L sys) sizes + ids_work D os live_non_zero +
    list_sum (map (fun t => ids_work D os (tc_ids L t)) live_tables) + list_sum (map (exp_cost F (work D os)) live_exponents).
End Spec.

Section Props.
  Variable L D : nat.
  Notation F := (TF L).
  Notation claim := (EvalModel.claim L).
  Notation claim_true := EvalSpec.claim_true.
  Variable u32 : F -> nat.
  Variable bc : nat -> option F.
  Variable domain_bits : nat.
  Variable os : oset L.
  Variable V : values L.
  Variable sys : system L.
  Variable sizes : list nat.
  Variable fuel : nat.
  Hypothesis HSYS : system_ok L D os V sys sizes.

  Let flushes := sys_flushes L sys.
  Let nz := live_non_zero L os sys.
  Let exps := live_exponents L os sys.
  Let tabs := live_tables L sys sizes.
  Let err := claims_error L D os sys sizes.

  Lemma in_range id o : present L os id o -> id < length os.
  Proof. intros P. apply nth_error_Some. unfold present in P. congruence. Qed.

  Lemma exp_operands e : In e exps -> forall id, In id (xp_bits e) \/ xp_base e = BaseOracle id ->
    exists o, present L os id o /\ o_nvars o = exp_vars F (n_vars_or0 os) e.
  Proof.
    intros He id Hid. destruct HSYS as (_ & _ & _ & _ & _ & HE). destruct (HE e He) as ([NE _] & n & H).
    assert (HL : In (last (xp_bits e) 0) (xp_bits e)).
    { clear -NE. destruct (xp_bits e) as [|a l]; [contradiction|]. revert a NE. induction l as [|b l IH]; intros a _; [now left|]. right. apply (IH b). discriminate. }
    destruct (H _ (or_introl HL)) as (o' & P' & N'). destruct (H id Hid) as (o & P & N). exists o. split; [exact P|]. unfold exp_vars, n_vars_or0, oget.
    unfold present in P'. rewrite P'. congruence.
  Qed.

  Definition exp_shaped (ecs : list (nat * list F * F)) : Prop :=
    (forall c, In c (map (eval_claim L) ecs) -> claim_sized os c) /\ claims_work L D os (map (eval_claim L) ecs) = list_sum (map (exp_cost F (work D os)) exps).

  Lemma claims_ids (os' : oset L) (cs : list (nat * list F * F)) : claims_work L D os' (map (eval_claim L) cs) = ids_work D os' (map (fun c => fst (fst c)) cs).
  Proof. unfold claims_work. now rewrite map_map. Qed.

  Lemma exp_shaped_sound : sound exp_shaped 0 (exp_phase (n_vars_or0 os) exps).
  Proof.
    eapply (sound_mono F); [apply exp_phase_shape|lia|].
    - apply Forall_forall. intros e He. destruct HSYS as (_ & _ & _ & _ & _ & HE). now destruct (HE e He).
    - intros ecs [A W]. split.
      + intros c Hc. apply in_map_iff in Hc as (c' & <- & Hc). rewrite Forall_forall in A. destruct (A c' Hc) as (e & He & OP & LN).
        destruct (exp_operands e He _ OP) as (o & P & N). exists o. split; [exact P|]. cbn [eval_claim c_point]. congruence.
      + rewrite claims_ids. apply W.
  Qed.

  (** * After the product phase *)
  Section Tail.
    Variable prod : oset L * list (nat * list F * F).
    Hypothesis SHAPE : phase_shape L D os flushes nz sizes prod.
    Variable V' : values L.
    Hypothesis C' : consistent (fst prod) V'.
    Hypothesis AG : forall i, i < length os -> V' i = V i.
    Variable ecs : list (nat * list F * F).
    Hypothesis EXP : exp_shaped ecs.
    Variable tables : list (sized_set L).
    Hypothesis TAB : Permutation tables (map (sized L sizes) tabs).

    Lemma sized_extends c : claim_sized os c -> claim_sized (fst prod) c.
    Proof.
      destruct SHAPE as (((ext & -> & _) & _) & _). intros (o & E & N). exists o. split; [|exact N]. rewrite nth_error_app1; [exact E|]. apply nth_error_Some. congruence.
    Qed.
    Lemma work_extends claims : (forall c, In c claims -> claim_sized os c) -> claims_work L D (fst prod) claims = claims_work L D os claims.
    Proof.
      destruct SHAPE as (((ext & -> & _) & _) & _). intros H. apply ids_work_app. intros i Hi. apply in_map_iff in Hi as (c & <- & Hc). destruct (H c Hc) as (o & E & _).
      apply nth_error_Some. congruence.
    Qed.
    Lemma tables_sized s : In s tables -> sized_ok L D os s.
    Proof.
      intros Hs. apply (Permutation_in _ TAB) in Hs. apply in_map_iff in Hs as (t & <- & Ht). destruct HSYS as (_ & _ & _ & _ & HT & _). now apply HT.
    Qed.

    Lemma greedy_tail claims : (forall c, In c claims -> claim_sized (fst prod) c) -> some_false L V' claims ->
      sound (refuted_claim L V os) (claims_work L D (fst prod) claims) (greedy_verify u32 fuel (fst prod) claims).
    Proof.
      intros HC BAD. destruct SHAPE as (((ext & EX & DE) & CS) & O & _). eapply (sound_mono F); [apply (greedy_sound L D u32 fuel (fst prod) claims V'); auto; apply CS, HSYS|lia|].
      intros out (c & o & Hc & Eo & Ev & NT). rewrite EX in Eo. destruct (Nat.lt_ge_cases (c_id c) (length os)) as [Hl|Hl].
      - exists c, o. rewrite nth_error_app1 in Eo by auto. repeat split; auto. unfold EvalSpec.claim_true in *. now rewrite <- AG.
      - rewrite nth_error_app2 in Eo by auto. apply nth_error_In in Eo. exfalso. apply (DE o Eo Ev).
    Qed.

    Let n_flush := length (snd prod) - length nz.
    Let fcs := map (eval_claim L) (firstn n_flush (snd prod)).
    Let ncs := map (eval_claim L) (skipn n_flush (snd prod)).

    Lemma split_work : claims_work L D (fst prod) fcs <= flushes_work L D os flushes sizes /\ claims_work L D (fst prod) ncs = ids_work D os nz /\
      forall c, In c (fcs ++ ncs) -> claim_sized (fst prod) c.
    Proof.
      destruct SHAPE as (((ext & EX & _) & _) & _ & SZ & ids & EI & _ & W). assert (N : n_flush = length ids).
      { unfold n_flush. rewrite <- (map_length (fun c => fst (fst c)) (snd prod)), EI, app_length. lia. }
      unfold fcs, ncs. rewrite !claims_ids, <- !firstn_map, <- !skipn_map, EI, N, firstn_app, skipn_app, Nat.sub_diag, firstn_all, skipn_all, firstn_O, skipn_O, app_nil_r.
      cbn [app]. split; [exact W|]. split.
      - rewrite EX. apply ids_work_app. intros i Hi. apply filter_In in Hi as [_ Hi]. apply nth_error_Some. unfold has_rows in Hi. destruct (nth_error os i); congruence.
      - rewrite firstn_skipn. intros c Hc. apply in_map_iff in Hc as (c' & <- & Hc). now apply SZ.
    Qed.

    Lemma tables_work : ids_work D os (flat_map (sz_ids L) tables) = list_sum (map (fun t => ids_work D os (tc_ids L t)) tabs).
    Proof.
      transitivity (list_sum (map (fun s => ids_work D os (sz_ids L s)) tables)).
      - unfold ids_work. clear. induction tables as [|s ts IH]; [reflexivity|]. cbn [flat_map map]. now rewrite map_app, list_sum_app, list_sum_cons, IH.
      - rewrite (list_sum_perm _ _ (Permutation_map _ TAB)), map_map. reflexivity.
    Qed.

    Lemma last_step fcl zm zout zero_claims e : (forall c, In c fcl -> claim_sized (fst prod) c) -> claims_work L D (fst prod) fcl + e <= claims_work L D (fst prod) fcs ->
      rmap (zerocheck_claim L) tables = Ok zm -> make_zerocheck_eval_claims (map snd zm) zout = Ok zero_claims ->
      some_false L V' fcl \/ some_false L V' ncs \/ some_false L V' (map (eval_claim L) zero_claims) \/ some_false L V' (map (eval_claim L) ecs) ->
      sound (refuted_claim L V os) (err - e)
        (greedy_verify u32 fuel (fst prod) (fcl ++ ncs ++ map (eval_claim L) zero_claims ++ map (eval_claim L) ecs)).
    Proof.
      intros S1 W1 EZ EC BAD. destruct split_work as (W2 & W3 & S2). destruct EXP as [S4 W4].
      destruct (zero_claims_shape L D os tables tables_sized zm EZ zout zero_claims EC) as [S3 I3].
      eapply (sound_mono F); [apply greedy_tail| |auto].
      - intros c Hc. rewrite !in_app_iff in Hc. destruct Hc as [Hc|[Hc|[Hc|Hc]]]; [auto| |now apply sized_extends, S3|now apply sized_extends, S4].
        apply S2, in_or_app. now right.
      - destruct BAD as [B|[B|[B|B]]]; destruct B as (c & Hc & NT); exists c; (split; [rewrite !in_app_iff; tauto|exact NT]).
      - rewrite !claims_work_app, W3, (work_extends _ S3), (work_extends _ S4), W4. rewrite claims_ids, I3, tables_work.
        unfold err, claims_error. fold nz exps tabs flushes. lia.
    Qed.

    Lemma verify_claims_sound e0 :
      (e0 = 0 /\ some_false L V' (map (eval_claim L) (snd prod))) \/
      (exists s, In s tables /\ broken L V s /\ (forall e b, sub_with_dim bc e = Ok b -> lin_indep b) /\ (forall e, e <= domain_bits -> exists b, sub_with_dim bc e = Ok b) /\
         Nat.max D (2 ^ domain_bits) <= 2 ^ usize_bits /\ e0 = zero_error L D tables domain_bits) ->
      sound (refuted_claim L V os) (e0 + err) (verify_claims L u32 bc domain_bits fuel (length nz) tables ecs prod).
    Proof.
      intros BAD. unfold verify_claims. fold n_flush fcs ncs. destruct SHAPE as (((ext & EX & DE) & CS) & O & _). destruct split_work as (W2 & W3 & S2).
      assert (CO : composable_set D (fst prod)) by apply CS, HSYS.
      destruct (reduce_flush_sound L D (fst prod) fcs O CO) as (e & R1 & R2); [intros; apply S2, in_or_app; now left|].
      destruct (Nat.le_gt_cases e err) as [LE|GT].
      2:{ eapply (sound_mono F _ _ (0 + 0)); [eapply (sound_bind F); [exact R1|]|lia|intros x Hx; exact Hx]. intros fcl [_ W1]. exfalso.
          unfold err, claims_error in GT. fold flushes in GT. lia. }
      assert (REST : forall fcl e1, (forall c, In c fcl -> claim_sized (fst prod) c) /\ claims_work L D (fst prod) fcl + e <= claims_work L D (fst prod) fcs ->
        (e1 = 0 /\ (some_false L V' fcl \/ some_false L V' ncs)) \/
        (exists s, In s tables /\ broken L V s /\ (forall e b, sub_with_dim bc e = Ok b -> lin_indep b) /\ (forall e, e <= domain_bits -> exists b, sub_with_dim bc e = Ok b) /\
           Nat.max D (2 ^ domain_bits) <= 2 ^ usize_bits /\ e1 = zero_error L D tables domain_bits) ->
        sound (refuted_claim L V os) (e1 + (err - e))
          (get zm <- VRet (rmap (zerocheck_claim L) tables);
           get zout <- zerocheck_verify bc (map fst zm) (skip_rounds L domain_bits (map fst zm));
           get zero_claims <- VRet (make_zerocheck_eval_claims (map snd zm) zout);
           greedy_verify u32 fuel (fst prod) (fcl ++ ncs ++ map (eval_claim L) zero_claims ++ map (eval_claim L) ecs))).
      { intros fcl e1 [S1 W1] B. apply sound_bind0. intros zm EZ. destruct B as [[-> B]|(s & Hs & BR & B1 & B2 & B3 & ->)].
        - apply (sound_bind F (fun _ => True)); [apply sound_any|]. intros zout _. apply sound_bind0. intros zc EC. apply (last_step fcl zm zout zc e); auto. tauto.
        - assert (BR' : broken L V' s).
          { destruct BR as (c & x & v & H1 & H2 & H3 & H4). exists c, x, v. split; [exact H1|]. split; [exact H2|]. split; [|exact H4]. rewrite <- H3. f_equal.
            apply map_ext_in. intros id Hid. destruct (tables_sized s Hs) as (_ & _ & P). destruct (P id Hid) as (o & Po & _). rewrite AG; [reflexivity|]. now apply (in_range id o). }
          eapply (sound_bind F); [apply (tables_sound L D os tables tables_sized zm EZ bc domain_bits B1 B2 B3 V' s Hs BR')|]. intros zout NT. apply sound_bind0. intros zc EC.
          apply (last_step fcl zm zout zc e); auto. right. right. left. apply (zero_claims_false L D os tables tables_sized zm EZ V' zout zc NT EC). }
      destruct BAD as [[-> B]|B].
      - destruct B as (c & Hc & NT). rewrite <- (firstn_skipn n_flush (snd prod)), map_app, in_app_iff in Hc. fold fcs ncs in Hc. destruct Hc as [Hc|Hc].
        + eapply (sound_mono F _ _ (e + (0 + (err - e)))); [|lia|intros x Hx; exact Hx]. eapply (sound_bind F).
          * apply (sound0_and F _ _ _ _ R1 (R2 V' C' (ex_intro _ c (conj Hc NT)))).
          * intros fcl [A B]. apply REST; auto.
        + eapply (sound_mono F _ _ (0 + (0 + (err - e)))); [|lia|intros x Hx; exact Hx]. eapply (sound_bind F); [exact R1|].
          intros fcl A. apply REST; auto. left. split; auto. right. now exists c.
      - eapply (sound_mono F _ _ (0 + (e0 + (err - e)))); [|lia|intros x Hx; exact Hx]. eapply (sound_bind F); [exact R1|]. intros fcl A. apply REST; auto.
    Qed.
  End Tail.

  (** * The whole verifier *)
  Variable bs : list (boundary F).
  Let specs := sys_specs L sys.
  Let phase := product_phase os flushes nz specs sizes (sys_channel_count L sys) bs.

  Lemma system_phase : check_table_sizes specs sizes = Ok tt -> phase_ok L os V flushes specs sizes.
  Proof.
    intros H. destruct HSYS as (A1 & A2 & _ & A3 & _). split; [exact A1|]. split; [exact A2|]. split; [exact H|]. split.
    - intros f Hf Hn. now apply (A3 f).
    - intros f id x Hf Hn. now apply (A3 f).
  Qed.

  Lemma not_accepted out : phase_shape L D os flushes nz sizes out -> ~ accepts L os V out ->
    exists V', consistent (fst out) V' /\ (forall i, i < length os -> V' i = V i) /\ some_false L V' (map (eval_claim L) (snd out)).
  Proof.
    intros (((ext & EX & DE) & _) & O & _) NA. destruct (consistent_extends L ext os V V) as (V' & C' & A & _); [rewrite <- EX; exact O|apply HSYS|].
    rewrite <- EX in C'. exists V'. split; [exact C'|]. split; [exact A|]. destruct (claims_dec L V' (map (eval_claim L) (snd out))) as [H|T]; [exact H|]. exfalso. apply NA.
    exists V'. split; [exact C'|]. split.
    - intros i o P x _. rewrite A; [reflexivity|]. now apply (in_range i o).
    - apply Forall_forall. intros c Hc. apply (T (eval_claim L c)). now apply in_map.
  Qed.

  Lemma retained_ids r : retain_non_zero L os (sys_non_zero L sys) = Ok r -> r = nz.
  Proof.
    apply retain_spec. intros id b _. unfold is_zero_sized, has_rows. destruct (nth_error os id) as [[o|]|]; cbn [rbind negb]; congruence.
  Qed.
  Lemma retained_exps r : retain_exponents L os (sys_exponents L sys) = Ok r -> r = exps.
  Proof.
    apply retain_spec. intros e b _. unfold is_zero_sized, has_rows. destruct (nth_error os (xp_result e)) as [[o|]|]; cbn [rbind negb]; congruence.
  Qed.

  Let prog := verify_reductions L u32 bc domain_bits fuel sys os sizes bs.

  (** Whatever the product phase catches is caught by the whole verifier. *)
  Lemma phase_caught e : (check_table_sizes specs sizes = Ok tt -> sound (fun out => ~ accepts L os V out) e phase) ->
    sound (refuted_claim L V os) (e + err) prog.
  Proof.
    intros HP. unfold prog, verify_reductions. apply sound_bind0. intros [] CK. apply sound_bind0. intros non_zero EN. apply retained_ids in EN as ->.
    apply sound_bind0. intros exponents EE. apply retained_exps in EE as ->. apply sound_bind0. intros tables ET. apply size_constraints_spec in ET.
    apply (sound_mono F (refuted_claim L V os) _ (0 + (e + err))); [|lia|auto]. eapply (sound_bind F); [exact exp_shaped_sound|]. intros ecs EX.
    eapply (sound_bind F).
    - apply (sound0_and F (phase_shape L D os flushes nz sizes) (fun out => ~ accepts L os V out) e); [|apply HP, CK].
      apply (phase_shape_ok L D os V flushes nz specs sizes bs (system_phase CK)). intros f Hf Hn. destruct HSYS as (_ & _ & _ & A3 & _). now apply (A3 f).
    - intros prod [SH NA]. destruct (not_accepted prod SH NA) as (V' & C' & AG & BAD). apply (sound_mono F (refuted_claim L V os) _ (0 + err)); [|lia|auto].
      apply (verify_claims_sound prod SH V' C' AG ecs EX tables ET). now left.
  Qed.

  Lemma zero_error_perm (a b : list (sized_set L)) : Permutation a b -> zero_error L D a domain_bits = zero_error L D b domain_bits.
  Proof.
    intros P. unfold zero_error, tables_vars, tables_constraints, tables_columns.
    rewrite (list_sum_perm _ _ (Permutation_map (fun s => length (sz_constraints L s)) P)), (list_sum_perm _ _ (Permutation_map (fun s => length (sz_ids L s)) P)).
    assert (M : fold_right Nat.max 0 (map (sz_n L) a) = fold_right Nat.max 0 (map (sz_n L) b)) by (clear -P; induction P; cbn [map fold_right]; lia).
    now rewrite M.
  Qed.

  Lemma broken_caught t : (forall e b, sub_with_dim bc e = Ok b -> lin_indep b) -> (forall e, e <= domain_bits -> exists b, sub_with_dim bc e = Ok b) ->
    Nat.max D (2 ^ domain_bits) <= 2 ^ usize_bits -> In t tabs -> broken L V (sized L sizes t) ->
    sound (refuted_claim L V os) (zero_error L D (map (sized L sizes) tabs) domain_bits + err) prog.
  Proof.
    intros B1 B2 B3 Ht BR. unfold prog, verify_reductions. apply sound_bind0. intros [] CK. apply sound_bind0. intros non_zero EN. apply retained_ids in EN as ->.
    apply sound_bind0. intros exponents EE. apply retained_exps in EE as ->. apply sound_bind0. intros tables ET. apply size_constraints_spec in ET. fold tabs in ET.
    set (z := zero_error _ _ _ _). apply (sound_mono F (refuted_claim L V os) _ (0 + (z + err))); [|lia|auto]. eapply (sound_bind F); [exact exp_shaped_sound|]. intros ecs EX.
    apply (sound_mono F (refuted_claim L V os) _ (0 + (z + err))); [|lia|auto]. eapply (sound_bind F).
    - apply (phase_shape_ok L D os V flushes nz specs sizes bs (system_phase CK)). intros f Hf Hn. destruct HSYS as (_ & _ & _ & A3 & _). now apply (A3 f).
    - intros prod SH. pose proof SH as (((ext & EXT & _) & _) & O & _).
      destruct (consistent_extends L ext os V V) as (V' & C' & A & _); [rewrite <- EXT; exact O|apply HSYS|]. rewrite <- EXT in C'.
      apply (verify_claims_sound prod SH V' C' A ecs EX tables ET). right. exists (sized L sizes t). split; [|split; [exact BR|]].
      + apply (Permutation_in _ (Permutation_sym ET)). now apply in_map.
      + repeat (split; [assumption|]). unfold z. symmetry. now apply zero_error_perm.
  Qed.

  (** What is returned: claims about committed columns of the caller. *)
  Lemma returned : sound (fun out => (exists ext, snd out = os ++ ext /\ derived ext) /\
      forall c, In c (fst out) -> exists o, nth_error os (c_id c) = Some (Some o) /\ o_variant o = Committed /\ length (c_point c) = o_nvars o) 0 prog.
  Proof.
    unfold prog, verify_reductions. apply sound_bind0. intros [] CK. apply sound_bind0. intros non_zero EN. apply retained_ids in EN as ->.
    apply sound_bind0. intros exponents EE. apply retained_exps in EE as ->. apply sound_bind0. intros tables ET. apply size_constraints_spec in ET. fold tabs in ET.
    eapply (sound_bind F _ _ 0 0); [exact exp_shaped_sound|]. intros ecs EX. eapply (sound_bind F _ _ 0 0).
    { apply (phase_shape_ok L D os V flushes nz specs sizes bs (system_phase CK)). intros f Hf Hn. destruct HSYS as (_ & _ & _ & A3 & _). now apply (A3 f). }
    intros prod SH. unfold verify_claims. pose proof SH as (((ext & EXT & DE) & CS) & O & _). destruct (split_work prod SH) as (W2 & W3 & S2).
    assert (CO : composable_set D (fst prod)) by apply CS, HSYS. set (n_flush := length (snd prod) - length nz) in *.
    destruct (reduce_flush_sound L D (fst prod) (map (eval_claim L) (firstn n_flush (snd prod))) O CO) as (e & R1 & _); [intros; apply S2, in_or_app; now left|].
    eapply (sound_bind F _ _ 0 0); [exact R1|]. intros fcl [S1 _]. apply sound_bind0. intros zm EZ.
    apply (sound_bind F (fun _ => True) _ 0 0); [apply sound_any|]. intros zout _. apply sound_bind0. intros zc EC.
    destruct (zero_claims_shape L D os tables (tables_sized tables ET) zm EZ zout zc EC) as [S3 _].
    eapply (sound_mono F); [apply (greedy_returns_sound L D u32 fuel (fst prod) _ O CO)|lia|].
    - intros c Hc. rewrite !in_app_iff in Hc. destruct Hc as [Hc|[Hc|[Hc|Hc]]]; [auto| |apply (sized_extends prod SH), S3, Hc|apply (sized_extends prod SH), EX, Hc].
      apply S2, in_or_app. now right.
    - intros out ((ext' & E' & DE') & _ & CM). split.
      + exists (ext ++ ext'). rewrite E', EXT, app_assoc. split; auto. intros o HI. apply in_app_iff in HI as [HI|HI]; auto.
      + intros c Hc. destruct (CM c Hc) as (o & Eo & Ev & En). exists o. split; auto. rewrite EXT in Eo.
        destruct (Nat.lt_ge_cases (c_id c) (length os)) as [Hl|Hl]; [now rewrite nth_error_app1 in Eo by auto|].
        rewrite nth_error_app2 in Eo by auto. apply nth_error_In in Eo. exfalso. apply (DE o Eo Ev).
  Qed.
End Props.

(* -------------------------------------------------------------------- *)
(** * C74 *)
Section Main.
  Variable L D : nat.
  Notation F := (TF L).
  Notation claim_true := EvalSpec.claim_true.
  Variable u32 : F -> nat.
  Variable bc : nat -> option F.
  Variable domain_bits fuel : nat.

  (** A constraint of a table with rows does not vanish on row [x]: then, against any strategy of the prover, of the vectors
      of [k] challenges from any set [S] at most the stated fraction of [1 / |S|] make the verifier accept with claims about
      the committed columns that are all true. *)
  Theorem broken_constraint_soundness (os : oset L) V (sys : system L) sizes bs t c x v : system_ok L D os V sys sizes ->
    (forall e b, sub_with_dim bc e = Ok b -> lin_indep b) -> (forall e, e <= domain_bits -> exists b, sub_with_dim bc e = Ok b) ->
    Nat.max D (2 ^ domain_bits) <= 2 ^ usize_bits ->
    In t (sys_tables L sys) -> nth (tc_table L t) sizes 0 <> 0 -> In (c, None) (tc_constraints L t) ->
    x < 2 ^ (tc_log_values_per_row L t + log2_ceil (nth (tc_table L t) sizes 0)) ->
    evaluate c (map (fun id => V id x) (tc_ids L t)) = Some v -> v <> f0 ->
    forall (strategy : list F -> nat -> list F) (S : list F) (k : nat) (T : list (list F)), NoDup S -> NoDup T ->
      (forall cs, In cs T -> length cs = k /\ incl cs S /\
         exists out, vplay (verify_reductions L u32 bc domain_bits fuel sys os sizes bs) strategy [] 0 cs = Ok out /\ forall c, In c (fst out) -> claim_true V c) ->
      length T * length S <=
        (zero_error L D (map (sized L sizes) (live_tables L sys sizes)) domain_bits + claims_error L D os sys sizes) * length S ^ k.
  Proof.
    intros OK B1 B2 B3 Ht NE Hc Hx EV NZ. apply of_sound. eapply (sound_mono F); [apply (broken_caught L D u32 bc domain_bits os V sys sizes fuel OK bs t B1 B2 B3)|lia|].
    - apply filter_In. split; [exact Ht|]. unfold live, table_size. apply negb_true_iff, Nat.eqb_neq, NE.
    - exists c, x, v. auto.
    - intros out (c' & o & Hc' & _ & _ & NT) H. auto.
  Qed.

  (** A channel over which a table with rows is flushed is not balanced. *)
  Theorem unbalanced_channel_soundness (os : oset L) V (sys : system L) sizes bs ch x wd : system_ok L D os V sys sizes ->
    let es := events F (wit L os V) sizes (sys_flushes L sys) bs in
    flushed L (sys_flushes L sys) sizes ch -> (forall e, In e es -> ev_channel F e = ch -> length (ev_values F e) = wd) ->
    sent F Push ch x es <> sent F Pull ch x es ->
    forall (strategy : list F -> nat -> list F) (S : list F) (k : nat) (T : list (list F)), NoDup S -> NoDup T ->
      (forall cs, In cs T -> length cs = k /\ incl cs S /\
         exists out, vplay (verify_reductions L u32 bc domain_bits fuel sys os sizes bs) strategy [] 0 cs = Ok out /\ forall c, In c (fst out) -> claim_true V c) ->
      length T * length S <=
        (length (on_channel F ch es) * (wd - 1) + (Nat.max (weight F Push ch es) (weight F Pull ch es) +
           gpa_error L os (sys_flushes L sys) (live_non_zero L os sys) sizes) + claims_error L D os sys sizes) * length S ^ k.
  Proof.
    intros OK es FL W NE. apply of_sound. eapply (sound_mono F); [apply (phase_caught L D u32 bc domain_bits os V sys sizes fuel OK bs)|apply Nat.le_refl|].
    - intros CK. apply (unbalanced_sound L os V (sys_flushes L sys) (live_non_zero L os sys) (sys_specs L sys) sizes bs (sys_channel_count L sys) ch x wd); auto.
      now apply (system_phase L D os V sys sizes).
    - intros out (c' & o & Hc' & _ & _ & NT) H. auto.
  Qed.

  (** A column that must not vanish is zero on row [x]. *)
  Theorem zero_column_soundness (os : oset L) V (sys : system L) sizes bs id o x : system_ok L D os V sys sizes ->
    In id (sys_non_zero L sys) -> nth_error os id = Some (Some o) -> x < 2 ^ o_nvars o -> V id x = f0 ->
    forall (strategy : list F -> nat -> list F) (S : list F) (k : nat) (T : list (list F)), NoDup S -> NoDup T ->
      (forall cs, In cs T -> length cs = k /\ incl cs S /\
         exists out, vplay (verify_reductions L u32 bc domain_bits fuel sys os sizes bs) strategy [] 0 cs = Ok out /\ forall c, In c (fst out) -> claim_true V c) ->
      length T * length S <=
        (gpa_error L os (sys_flushes L sys) (live_non_zero L os sys) sizes + claims_error L D os sys sizes) * length S ^ k.
  Proof.
    intros OK HI EO Hx HZ. apply of_sound. eapply (sound_mono F); [apply (phase_caught L D u32 bc domain_bits os V sys sizes fuel OK bs)|apply Nat.le_refl|].
    - intros CK. apply (zero_sound L os V (sys_flushes L sys) (live_non_zero L os sys) (sys_specs L sys) sizes bs (sys_channel_count L sys) id x); auto.
      + now apply (system_phase L D os V sys sizes).
      + apply filter_In. split; [exact HI|]. unfold has_rows. now rewrite EO.
      + unfold n_vars_or0, oget. now rewrite EO.
    - intros out (c' & o' & Hc' & _ & _ & NT) H. auto.
  Qed.

  (** Every returned claim is about a committed column of the caller, at a point of its dimension; the oracles are only added to. *)
  Theorem verify_reductions_returns (os : oset L) V (sys : system L) sizes bs tape cs out t r : system_ok L D os V sys sizes ->
    vrun (verify_reductions L u32 bc domain_bits fuel sys os sizes bs) tape cs = Ok (out, t, r) ->
    (exists ext, snd out = os ++ ext) /\
    forall c, In c (fst out) -> exists o, nth_error os (c_id c) = Some (Some o) /\ o_variant o = Committed /\ length (c_point c) = o_nvars o.
  Proof.
    intros OK E. destruct (sound0_run L _ _ (returned L D u32 bc domain_bits os V sys sizes fuel OK bs) tape cs out t r E) as [(ext & E1 & _) H]. split; [now exists ext|exact H].
  Qed.
End Main.

(** When the compiler is correct on a circuit (C68), which can be decided. *)
Theorem supported_compiled L D (c e : circuit (TF L)) d : cwf (TF L) c -> optimize false true c = Some e -> supportedb e = true -> degree e = Some d -> d <= D ->
  compiled L D c.
Proof.
  intros W EO SB ED HD n k E. destruct (optimize_checked_correct (TF L) true c e (fun _ => TF_char2 L) W EO) as [[NE We] _]. pose proof (supportedb_ok e We SB) as S.
  destruct (Nat.lt_ge_cases n (n_vars e)) as [LT|GE].
  - unfold circuit_comp in E. rewrite (circuit_poly_vars true c e n EO LT) in E. discriminate.
  - destruct (circuit_poly_partial true c e n (fun _ => TF_char2 L) W EO S GE) as (p & EP & _ & EV & _). unfold circuit_comp in E. rewrite EP in E. cbn [rbind] in E.
    assert (EX : cp_expr p = e).
    { unfold poly_with_n_vars in EP. rewrite EO in EP. destruct (n <? n_vars e); [discriminate|]. destruct (convert_circuit_steps e) as [[st r]|]; [|discriminate]. now injection EP as <-. }
    rewrite EX, ED in E. destruct (leading_term e) as [lt|]; [|discriminate]. destruct (vars_usage e) as [u|]; [|discriminate]. injection E as <-. split; [exact HD|exact EV].
Qed.

(* -------------------------------------------------------------------- *)
(** * An example *)
(** A table of three rows with a column, a selector and a product of the two; the selected rows are pushed. *)
Definition vsys16 : system 2 :=
  mkSystem 2 [mkTc 2 0 0 [0; 1] [(cmul (cvar 0) (cvar 1), None)]] [push16] [0; 1] 1 [mkExp [1] (BaseConst (el 2)) 0] [Arbitrary].

Fact product_compiled : compiled 2 3 (cmul (cvar 0) (cvar 1) : circuit X16).
Proof.
  destruct (circuits_wf X16) as (_ & HV & HO & _). eapply (supported_compiled 2 3 _ _ 2); [apply HO; apply HV|reflexivity|vm_compute; reflexivity|reflexivity|lia].
Qed.

Fact system_ok_nonvacuous : system_ok 2 3 os16 V16 vsys16 [3].
Proof.
  destruct phase_ok_nonvacuous as (P1 & P2 & P3 & P4 & P5). split; [exact P1|]. split; [exact P2|].
  split; [intros [|[|[|]]] o m ids c E; cbn in E; inversion E; subst; discriminate|]. split; [|split].
  - intros f Hf Hn. split; [now apply P4|]. split; [destruct Hf as [<-|[]]; cbn; lia|]. intros id x Hid Hx. now apply (P5 f id x).
  - intros t [<-|[]]. split; [discriminate|]. split.
    + intros con [<-|[]]. cbn [fst]. destruct (circuits_wf X16) as (_ & HV & HO & _). split; [apply HO; apply HV|]. split; [cbn; lia|exact product_compiled].
    + intros id [<-|[<-|[]]]; eexists; split; reflexivity.
  - intros e [<-|[]]. split; [split; [discriminate|cbn; lia]|]. exists 2. intros id [[<-|[]]|E]; [eexists; split; reflexivity|discriminate].
Qed.

(** The product is not zero on row 0, the selector is zero on row 1, and the pushed tuples are not pulled. *)
Fact violations_nonvacuous :
  (exists v, evaluate (cmul (cvar 0) (cvar 1) : circuit X16) (map (fun id => V16 id 0) [0; 1]) = Some v /\ v <> f0) /\ V16 1 1 = f0 /\
  (let es := events X16 (wit 2 os16 V16) [3] (sys_flushes 2 vsys16) [bd16 Pull [el 4; el 7]] in
   flushed 2 (sys_flushes 2 vsys16) [3] 0 /\ sent X16 Push 0 [el 6; el 7] es <> sent X16 Pull 0 [el 6; el 7] es /\ forall e, In e es -> length (ev_values X16 e) = 2) /\
  (forall e b, sub_with_dim (tower_basis_checked 2) e = Ok b -> lin_indep b) /\ (forall e, e <= 4 -> exists b, sub_with_dim (tower_basis_checked 2) e = Ok b) /\
  (zero_error 2 3 (map (sized 2 [3]) (live_tables 2 vsys16 [3])) 4, claims_error 2 3 os16 vsys16 [3], gpa_error 2 os16 [push16] (live_non_zero 2 os16 vsys16) [3]) = (37, 9, 18).
Proof.
  split; [eexists; split; [reflexivity|]; intros E; apply (f_equal bits) in E; vm_compute in E; discriminate|]. split; [reflexivity|].
  split; [destruct unbalanced_nonvacuous as (_ & A & B & C); auto|]. split; [intros e b H; now apply (with_dim_tower 2 e)|].
  split; [|vm_compute; reflexivity]. intros e He. do 5 (destruct e as [|e]; [eexists; vm_compute; reflexivity|]). lia.
Qed.
