(** Compilation of M3 tables: the oracles of the columns say what the cells of the tables say (for C78). *)
Require Import Coq.NArith.NArith Coq.setoid_ring.Ring Coq.Arith.Arith Coq.Lists.List Coq.Bool.Bool Lia.
From Verif Require Import Base.Fld Base.Lists Base.Sums Math.MleSpec Math.MleModel Math.ArithModel Math.ArithProofs Math.ArithProps Field.TowerModel Field.TowerProofs Field.TowerProps
  Transparent.TransparentModel Transparent.TransparentProps Transparent.TowerBasisProps Transparent.ShiftModel Sumcheck.ZerocheckModel Gkr.ExpModel Cs.ChannelModel Cs.FlushModel Cs.FlushProofs Cs.VerifyModel
  Evalcheck.OracleModel Evalcheck.EvalModel Evalcheck.EvalSpec Evalcheck.EvalMle Evalcheck.EvalProofs Evalcheck.EvalExtend Evalcheck.OracleProps Evalcheck.SymbolicModel Evalcheck.SymbolicProps
  M3.CompileModel M3.CompileSpec M3.RemapProofs M3.BuilderProofs M3.CompileProofs M3.TranslateProofs M3.SystemProofs.
Import ListNotations.
Local Close Scope N_scope.
Local Open Scope nat_scope.

Section Lemmas.
  Variable L : nat.
  Notation F := (TF L).
  Add Ring Fring : (f_ring F).

  Lemma sumn_S_l n (f : nat -> F) : sumn (S n) f = fadd (f 0) (sumn n (fun i => f (S i))).
  Proof. change (S n) with (1 + n). rewrite sumn_split, sumn_1. reflexivity. Qed.
  Lemma sumn_zeros n (f : nat -> F) : (forall i, i < n -> f i = f0) -> sumn n f = f0.
  Proof. apply sumn_zero. Qed.

  Lemma offset_vars (o : nat) (c : circuit F) : n_vars (map (offset_step o) c) = n_vars c.
  Proof. unfold n_vars. rewrite map_map. f_equal. apply map_ext. now intros []. Qed.
  Lemma n_vars_cadd (a b : circuit F) : n_vars (cadd a b) = Nat.max (n_vars a) (n_vars b).
  Proof. unfold cadd. rewrite !n_vars_app, offset_vars. unfold n_vars at 3. cbn [map var_bound fold_right]. lia. Qed.
  Lemma n_vars_cmul (a b : circuit F) : n_vars (cmul a b) = Nat.max (n_vars a) (n_vars b).
  Proof. unfold cmul. rewrite !n_vars_app, offset_vars. unfold n_vars at 3. cbn [map var_bound fold_right]. lia. Qed.

  Definition incr_terms (m : nat) : list (circuit F) := map (fun i => cmul (cvar i) (cconst (dec L (2 ^ N.of_nat i)))) (seq 0 m).
  Lemma incr_n_vars m : n_vars (csum (incr_terms m)) = m.
  Proof.
    unfold csum, incr_terms. induction m as [|m IH]; [reflexivity|]. rewrite seq_S, map_app, fold_left_app. cbn [map fold_left Nat.add]. rewrite n_vars_cadd, IH, n_vars_cmul.
    unfold n_vars. cbn [cvar cconst map var_bound fold_right]. lia.
  Qed.
  Lemma incr_evaluate m (q : list F) : m <= length q -> evaluate (csum (incr_terms m)) q = Some (sumn m (fun i => fmul (nth i q f0) (dec L (2 ^ N.of_nat i)))).
  Proof.
    intros H. destruct (circuits_wf F) as (WC & WV & WO & _).
    destruct (csum_correct F q (incr_terms m) (map (fun i => fmul (nth i q f0) (dec L (2 ^ N.of_nat i))) (seq 0 m))) as [E _].
    - unfold incr_terms. now rewrite !map_length.
    - unfold incr_terms at 1. rewrite map_length, seq_length. intros i Hi. unfold incr_terms. rewrite (nth_map_seq _ _ _ _ Hi), (nth_map_seq _ _ _ _ Hi).
      split; [apply WO; auto|]. assert (E1 : evaluate (cvar i) q = Some (nth i q f0)).
      { unfold evaluate, evals, cvar. cbn [ofold step_val obind]. destruct (nth_error_ex q i ltac:(lia)) as [v Ev]. rewrite Ev. cbn. now rewrite (nth_error_nth q i f0 Ev). }
      assert (E2 : evaluate (cconst (dec L (2 ^ N.of_nat i))) q = Some (dec L (2 ^ N.of_nat i))) by reflexivity.
      apply (circuit_ops F q (cvar i) (cconst (dec L (2 ^ N.of_nat i))) _ _ 0%N (WV i) (WC _) E1 E2).
    - rewrite E. reflexivity.
  Qed.
  Lemma incr_mle (q : list F) : forall s, mle (fun x => dec L (N.of_nat x * 2 ^ N.of_nat s)) q = sumn (length q) (fun i => fmul (nth i q f0) (dec L (2 ^ N.of_nat (s + i)))).
  Proof.
    induction q as [|z q IH]; intros s.
    - rewrite mle_nil. cbn [length]. rewrite sumn_0. cbn [N.of_nat]. rewrite N.mul_0_l. apply dec_0.
    - rewrite mle_cons. rewrite (mle_ext F _ (fun x => (dec L (N.of_nat x * 2 ^ N.of_nat (S s)) + z * dec L (2 ^ N.of_nat s))%F)).
      + rewrite mle_add, IH, mle_const. cbn [length]. rewrite sumn_S_l. cbn [nth]. rewrite Nat.add_0_r. rewrite (sumn_ext F (length q) _ (fun i => fmul (nth i q f0) (dec L (2 ^ N.of_nat (s + S i))))); [ring|].
        intros i _. do 4 f_equal. lia.
      + intros x _. rewrite !Nat2N.inj_add, !Nat2N.inj_mul, (Nat2N.inj_succ s), N.pow_succ_r'. change (N.of_nat 2) with 2%N. change (N.of_nat 1) with 1%N.
        set (a := N.of_nat x). set (p := (2 ^ N.of_nat s)%N).
        assert (E : ((2 * a + 1) * p = tadd (2 * a * p) p)%N).
        { unfold tadd. rewrite <- N.add_nocarry_lxor; [lia|]. apply N.bits_inj. intros n. rewrite N.land_spec, N.bits_0. unfold p. rewrite N.pow2_bits_eqb. destruct (N.eqb_spec (N.of_nat s) n) as [<-|]; [|apply andb_false_r].
          rewrite N.mul_pow2_bits_high by lia. rewrite N.sub_diag, N.testbit_even_0. reflexivity. }
        rewrite E, dec_add. replace (2 * a * p)%N with (a * (2 * p))%N by lia. ring.
  Qed.
  Lemma incr_sum_mle (q : list F) : sumn (length q) (fun i => fmul (nth i q f0) (dec L (2 ^ N.of_nat i))) = mle (fun x => dec L (N.of_nat x)) q.
  Proof. rewrite (mle_ext F _ (fun x => dec L (N.of_nat x * 2 ^ N.of_nat 0))); [|intros x _; f_equal; cbn [N.of_nat]; rewrite N.pow_0_r; lia]. rewrite incr_mle. reflexivity. Qed.
  (** the incrementing circuit on a query padded with zeros *)
  Lemma incr_padded m (q : list F) : length q <= m -> evaluate (csum (incr_terms m)) (q ++ repeat f0 (m - length q)) = Some (mle (fun x => dec L (N.of_nat x)) q).
  Proof.
    intros H. rewrite incr_evaluate by (rewrite app_length, repeat_length; lia). f_equal. rewrite <- incr_sum_mle.
    replace m with (length q + (m - length q)) at 1 by lia. rewrite sumn_split. rewrite (sumn_ext F (length q) _ (fun i => fmul (nth i q f0) (dec L (2 ^ N.of_nat i)))) by (intros i Hi; now rewrite app_nth1).
    rewrite (sumn_zeros (m - length q)); [ring|]. intros i Hi. rewrite app_nth2 by lia. rewrite nth_repeat. ring.
  Qed.

  Lemma index_vertex n index : index_values L n index = vertex n index.
  Proof.
    unfold index_values. revert index. induction n as [|n IH]; intros index; [reflexivity|]. cbn [seq map vertex]. rewrite <- seq_shift, map_map. f_equal.
    rewrite <- IH. apply map_ext. intros i. cbn [Nat.testbit]. now rewrite Nat.div2_div.
  Qed.

  (** the sum over the columns of a linear expression *)
  Lemma linear_sum (V : nat -> nat -> F) x lk (cols : list cid) : forall (coeffs : list F) inner,
    Forall2 (fun cc jc => snd jc = snd cc /\ fst jc = lk (fst cc)) (combine cols coeffs) inner ->
    fold_right (fun jc acc => fadd (fmul (snd jc) (V (fst jc) x)) acc) f0 inner = sumn (length coeffs) (fun i => fmul (nth i coeffs f0) (nth i (map (fun k => V (lk k) x) cols) f0)).
  Proof.
    induction cols as [|c cols IH]; intros coeffs inner H.
    - cbn [combine] in H. inversion H; subst. cbn [fold_right map]. symmetry. apply sumn_zeros. intros i _. destruct i; cbn [nth]; ring.
    - destruct coeffs as [|a coeffs]; [cbn [combine] in H; inversion H; subst; cbn [fold_right length]; now rewrite sumn_0|]. cbn [combine] in H. inversion H as [|cc jc l l' [H1 H2] H3]; subst.
      cbn [fold_right length map]. rewrite sumn_S_l. cbn [nth]. rewrite (IH coeffs l' H3), H1, H2. reflexivity.
  Qed.
End Lemmas.

Section Cells.
  Variable L : nat.
  Notation F := (TF L).
  Add Ring Fring2 : (f_ring F).
  Variable ts : list (tbl L).
  Variable ss : sset L.
  Variable m : olookup.
  Variable nz : list nat.
  Variable lk : cid -> nat.
  Variable sizes : list nat.
  Hypothesis OK : tables_ok L ts.
  Hypothesis CP : all_compilable L ts.
  Hypothesis IV : inv L ss m nz (all_cols L ts).
  Hypothesis LK : agrees m lk.
  Hypothesis SF : sizes_fit L ts sizes.

  Notation rows_of := (CompileSpec.rows_of sizes).
  Notation lv_of := (CompileSpec.lv_of L ts).

  Lemma col_oracle i : In i (all_cols L ts) -> lookup m (ci_id L i) = Ok (lk (ci_id L i)) /\ oracle_for L ss m i (lk (ci_id L i)).
  Proof. intros Hi. destruct (inv_oracle _ _ _ _ _ IV i Hi) as (id & E & O). rewrite (LK _ _ E). auto. Qed.
  Lemma col_table i : In i (all_cols L ts) -> exists t, nth_error ts (fst (ci_id L i)) = Some t /\ t_id L t = fst (ci_id L i) /\ table_ok L t /\ nth_error (t_cols L t) (snd (ci_id L i)) = Some i /\ column_ok L t (snd (ci_id L i)) i.
  Proof.
    intros Hi. pose proof (info_in L ts i OK Hi) as E. unfold info_of in E. destruct (nth_error ts (fst (ci_id L i))) as [t|] eqn:Et; [|discriminate]. exists t. destruct (OK _ _ Et) as [TI TO].
    split; [reflexivity|]. split; [exact TI|]. split; [exact TO|]. split; [exact E|]. apply TO, E.
  Qed.
  Lemma col_ref i t n lv k : In i (all_cols L ts) -> nth_error ts (fst (ci_id L i)) = Some t -> column_of L t n lv k ->
    exists i', In i' (all_cols L ts) /\ ci_id L i' = k /\ ci_lv L i' = lv /\ fst k = fst (ci_id L i).
  Proof.
    intros Hi Et (H1 & H2 & i' & H3 & H4). destruct (OK _ _ Et) as [TI TO]. assert (E : info_of L ts k = Some i') by (unfold info_of; now rewrite H1, TI, Et).
    destruct (in_info L ts k i' OK E) as [H5 H6]. exists i'. repeat split; auto. congruence.
  Qed.
  Lemma lv_of_col i : In i (all_cols L ts) -> lv_of (ci_id L i) = ci_lv L i.
  Proof. intros Hi. unfold CompileSpec.lv_of. now rewrite (info_in L ts i OK Hi). Qed.

  Lemma table_size i t spec : In i (all_cols L ts) -> nth_error ts (fst (ci_id L i)) = Some t -> t_spec L t = spec -> spec <> Arbitrary -> 
    rows_of (ci_id L i) = 2 ^ log2_ceil (rows_of (ci_id L i)) /\ forall n, spec = Fixed n -> log2_ceil (rows_of (ci_id L i)) = n.
  Proof.
    intros Hi Et ES NA. destruct SF as [CT _]. assert (LS : length sizes = length ts).
    { unfold check_table_sizes in CT. rewrite map_length in CT. destruct (Nat.eqb_spec (length sizes) (length ts)); [assumption|discriminate]. }
    assert (HL : fst (ci_id L i) < length sizes) by (rewrite LS; apply nth_error_Some; congruence). destruct (nth_error_ex sizes _ HL) as [size EZ].
    assert (ER : rows_of (ci_id L i) = size) by (unfold CompileSpec.rows_of; now apply nth_error_nth). assert (ESP : nth_error (map (t_spec L) ts) (fst (ci_id L i)) = Some spec) by (rewrite nth_error_map, Et; cbn [option_map]; now rewrite ES).
    pose proof (table_sizes_ok _ _ _ _ _ CT EZ ESP NA) as P. rewrite ER. split; [symmetry; exact P|]. intros n ->.
    assert (S2 : size = 2 ^ n).
    { unfold check_table_sizes in CT. destruct (negb _); [discriminate|]. destruct (forallb _ (combine sizes _)) eqn:E; [|discriminate]. rewrite forallb_forall in E.
      assert (I : In (size, Fixed n) (combine sizes (map (t_spec L) ts))).
      { clear - EZ ESP. revert EZ ESP. generalize (map (t_spec L) ts) (fst (ci_id L i)). intros specs x. revert specs x. induction sizes as [|a l IH]; intros [|b specs] [|x]; cbn [nth_error combine]; intros EZ ES; try discriminate; [left; congruence|right; eauto]. }
      specialize (E _ I). cbn [fst snd] in E. now apply Nat.eqb_eq in E. }
    rewrite S2 in P. apply Nat.pow_inj_r in P; [|lia]. now rewrite S2.
  Qed.

  Lemma col_vars i o : In i (all_cols L ts) -> nth_error ss (lk (ci_id L i)) = Some o ->
    rows L sizes o = rows_of (ci_id L i) /\ (rows L sizes o <> 0 -> vars L sizes o = log2_ceil (rows_of (ci_id L i)) + ci_lv L i).
  Proof.
    intros Hi Eo. destruct (col_oracle i Hi) as [_ (level & v & E & VF)]. rewrite E in Eo. injection Eo as <-. split; [reflexivity|]. intros _. unfold vars. cbn [so_variant so_lv].
    destruct (col_table i Hi) as (t & Et & TI & TO & Ei & CO). unfold variant_for in VF. unfold column_ok in CO.
    destruct (ci_def L i) as [l|ks c|k' ix b|k' s size bits|k' pad s nz'|k' off b sv|k' d|data l|max|c|bits g l|bits g l] eqn:ED;
      try (destruct VF as (j & o & _ & _ & ->); reflexivity); try (destruct VF as [_ ->]; reflexivity).
    - destruct VF as (k0 & coeffs & inner & _ & -> & _). reflexivity.
    - destruct VF as (j & p & _ & _ & _ & -> & _). reflexivity.
    - destruct VF as (e & _ & ->). reflexivity.
    - subst v. cbn [circuit_mvpoly mv_nvars]. destruct CO as [-> ES]. destruct (table_size i t _ Hi Et ES ltac:(discriminate)) as [_ H]. rewrite (H _ eq_refl). lia.
  Qed.

  (** the oracle of a column that another column refers to *)
  Lemma ref_older i id lv k j o : In i (all_cols L ts) -> rows_of (ci_id L i) <> 0 -> (exists t n, nth_error ts (fst (ci_id L i)) = Some t /\ column_of L t n lv k) -> ref L ss m id k j o ->
    older L ss sizes id j (log2_ceil (rows_of (ci_id L i)) + lv) /\ lk k = j /\ lv_of k = lv.
  Proof.
    intros Hi R (t & n & Et & CO) (H1 & H2 & H3). destruct (col_ref i t n lv k Hi Et CO) as (i' & Hi' & <- & <- & EF). pose proof (LK _ _ H1) as EK.
    assert (ER : rows_of (ci_id L i') = rows_of (ci_id L i)) by (unfold CompileSpec.rows_of; now rewrite EF).
    destruct (col_vars i' o Hi') as [V1 V2]; [now rewrite EK|]. rewrite ER in *. split; [|split; [exact EK|now apply lv_of_col]]. split; [exact H3|]. exists o. split; [exact H2|]. split; [congruence|]. apply V2. congruence.
  Qed.

  (** the levels of the oracles of exact columns *)
  Lemma exact_level c : exact L ts c -> forall i o, info_of L ts c = Some i -> nth_error ss (lk c) = Some o -> so_level o = ci_level L i.
  Proof.
    induction 1 as [c i0 E D|c i0 k E D EX IH]; intros i o Ei Eo; rewrite E in Ei; injection Ei as ->; destruct (in_info L ts c i OK E) as [Hi <-]; destruct (col_oracle i Hi) as [_ (level & v & E' & VF)];
      rewrite E' in Eo; injection Eo as <-; cbn [so_level]; destruct (col_table i Hi) as (t & Et & TI & TO & Ei & CO); unfold variant_for in VF; unfold column_ok in CO.
    - destruct (ci_def L i) as [l|ks c|k' ix b|k' s size bits|k' pad s nz'|k' off b sv|k' d|data l|max|c|bits g l|bits g l] eqn:ED; try contradiction.
      + destruct VF as [-> _]. exact CO.
      + destruct VF as (j & p & _ & _ & -> & _). apply CO.
      + destruct VF as [-> _]. apply CO.
      + destruct VF as [-> _]. apply CO.
    - assert (LV : forall j o, ref L ss m (lk (ci_id L i)) k j o -> so_level o = level_of L ts k).
      { intros j o (R1 & R2 & _). unfold level_of. inversion EX as [c' i' EI|c' i' k' EI]; subst; rewrite EI; apply (IH i' o EI); now rewrite (LK _ _ R1). }
      destruct (ci_def L i) as [l|ks c|k' ix b|k' s size bits|k' pad s nz'|k' off b sv|k' d|data l|max|c|bits g l|bits g l] eqn:ED; try contradiction; destruct D as [-> D];
        destruct VF as (j & o & R & -> & _); rewrite (LV j o R); exact D.
  Qed.

  (** * Positions *)
  Lemma pos_div r lv j : j < 2 ^ lv -> (r * 2 ^ lv + j) / 2 ^ lv = r /\ (r * 2 ^ lv + j) mod 2 ^ lv = j.
  Proof.
    intros H. pose proof (Nat.pow_nonzero 2 lv ltac:(lia)). split.
    - rewrite Nat.div_add_l, Nat.div_small by lia. lia.
    - rewrite Nat.add_comm, Nat.mod_add, Nat.mod_small by lia. lia.
  Qed.
  Lemma shifted_pos sv b o (a : nat -> F) r lv j : b <= lv -> 0 < o < 2 ^ b -> j < 2 ^ lv ->
    shifted_value sv b o a (r * 2 ^ lv + j) = shifted_value sv b o (fun j => a (r * 2 ^ lv + j)) j.
  Proof.
    intros Hb Ho Hj. unfold shifted_value. assert (EM : (r * 2 ^ lv + j) mod 2 ^ b = j mod 2 ^ b).
    { replace lv with (lv - b + b) by lia. rewrite Nat.pow_add_r, Nat.mul_assoc, Nat.add_comm. apply Nat.mod_add. apply Nat.pow_nonzero. lia. }
    rewrite EM. pose proof (Nat.mod_le j (2 ^ b) ltac:(apply Nat.pow_nonzero; lia)). destruct sv.
    - f_equal. lia.
    - destruct (Nat.leb_spec o (j mod 2 ^ b)); [f_equal; lia|reflexivity].
    - destruct (j mod 2 ^ b + o <? 2 ^ b); [f_equal; lia|reflexivity].
  Qed.
  (** fixing [size] coordinates above the first [s] of a hypercube point *)
  Lemma projected_pos (a : nat -> F) n lv size bits r j : r < 2 ^ n -> j < 2 ^ lv ->
    mle a (vertex lv (r * 2 ^ lv + j) ++ index_values L size bits ++ vertex (n + lv - lv) ((r * 2 ^ lv + j) / 2 ^ lv)) = a (r * 2 ^ (lv + size) + (j + 2 ^ lv * (bits mod 2 ^ size))).
  Proof.
    intros Hr Hj. destruct (pos_div r lv j Hj) as [ED EM]. rewrite ED, Nat.add_sub, index_vertex. set (b := bits mod 2 ^ size). set (y := r * 2 ^ (lv + size) + (j + 2 ^ lv * b)).
    assert (P1 : 2 ^ lv <> 0) by (apply Nat.pow_nonzero; lia). assert (P2 : 2 ^ size <> 0) by (apply Nat.pow_nonzero; lia).
    assert (Hb : b < 2 ^ size) by (apply Nat.mod_upper_bound, P2).
    assert (Y1 : y = (r * 2 ^ size + b) * 2 ^ lv + j) by (unfold y; rewrite Nat.pow_add_r; lia).
    destruct (pos_div (r * 2 ^ size + b) lv j Hj) as [Q1 Q2]. destruct (pos_div r size b Hb) as [Q3 Q4]. rewrite <- Y1 in Q1, Q2.
    replace (vertex lv (r * 2 ^ lv + j) ++ vertex size bits ++ vertex n r) with (vertex (F := F) (lv + (size + n)) y).
    - apply mle_on_cube. rewrite Y1. rewrite Nat.pow_add_r. assert (r * 2 ^ size + b < 2 ^ (size + n)) by (rewrite Nat.pow_add_r; nia). nia.
    - rewrite vertex_app, Q1, vertex_app, Q3. rewrite <- (vertex_mod F lv lv y), Q2 by lia. rewrite <- (vertex_mod F lv lv (r * 2 ^ lv + j)), EM by lia. rewrite <- (vertex_mod F size size (r * 2 ^ size + b)), Q4 by lia.
      unfold b. rewrite (vertex_mod F size size bits) by lia. reflexivity.
  Qed.

  (** * The columns *)
  Notation view := (CompileSpec.view L lk ts).

  Lemma column_shape i o : In i (all_cols L ts) -> nth_error ss (lk (ci_id L i)) = Some o -> rows L sizes o <> 0 -> shape_ok L ss sizes (lk (ci_id L i)) (vars L sizes o) (so_variant o).
  Proof.
    intros Hi Eo R. destruct (col_vars i o Hi Eo) as [ER EV]. rewrite (EV R). clear EV. rewrite ER in R. destruct (col_oracle i Hi) as [_ (level & v & E & VF)]. rewrite E in Eo. injection Eo as <-.
    cbn [so_variant]. destruct (col_table i Hi) as (t & Et & TI & TO & Ei & CO). pose proof (CP _ _ (info_in L ts i OK Hi)) as CC. unfold compilable in CC. unfold variant_for in VF. unfold column_ok in CO.
    set (n := log2_ceil (rows_of (ci_id L i))) in *. set (lv := ci_lv L i) in *.
    destruct (ci_def L i) as [l|ks c|k' ix b|k' s size bits|k' pad s nz'|k' off b sv|k' d|data l|max|c|bits g l|bits g l] eqn:ED.
    - destruct VF as [_ ->]. exact I.
    - destruct VF as (k0 & coeffs & inner & _ & -> & FA). destruct CO as (CO & _). intros j c' Hj.
      assert (X : exists cc, In cc (combine ks coeffs) /\ exists o, ref L ss m (lk (ci_id L i)) (fst cc) j o).
      { clear -FA Hj. induction FA as [|cc jc l l' (E1 & o & E2) FA IH]; [destruct Hj|]. destruct Hj as [->|Hj]; [exists cc; split; [now left|]; cbn [fst] in *; eauto|]. destruct (IH Hj) as (cc' & H1 & H2). exists cc'. split; [now right|exact H2]. }
      destruct X as ([kk cf] & Hk & o & RF). apply in_combine_l in Hk. apply (ref_older i _ lv kk j o Hi R); [exists t, (snd (ci_id L i)); split; [exact Et|apply CO, Hk]|exact RF].
    - destruct VF as (j & o & RF & _ & ->). destruct CO as (E0 & H1 & CO). destruct (ref_older i _ b k' j o Hi R (ex_intro _ t (ex_intro _ _ (conj Et CO))) RF) as (OL & _). cbn [shape_ok]. split; [lia|]. unfold index_values. rewrite map_length, seq_length. replace (n + lv + b) with (n + b) by lia. exact OL.
    - destruct VF as (j & o & RF & _ & ->). destruct CO as (E0 & CO). destruct (ref_older i _ (lv + size) k' j o Hi R (ex_intro _ t (ex_intro _ _ (conj Et CO))) RF) as (OL & _). cbn [shape_ok]. split; [lia|]. unfold index_values. rewrite map_length, seq_length, <- Nat.add_assoc. exact OL.
    - destruct VF as (j & o & RF & _ & ->). destruct CO as (E0 & H1 & CO). destruct (ref_older i _ s k' j o Hi R (ex_intro _ t (ex_intro _ _ (conj Et CO))) RF) as (OL & _). cbn [shape_ok]. split; [lia|]. split; [lia|]. replace (n + lv - pad) with (n + s) by lia. exact OL.
    - destruct VF as (j & o & RF & _ & ->). destruct CO as (E0 & H1 & CO). destruct (ref_older i _ lv k' j o Hi R (ex_intro _ t (ex_intro _ _ (conj Et CO))) RF) as (OL & _). cbn [shape_ok]. split; [split; [lia|exact CC]|exact OL].
    - destruct VF as (j & o & RF & _ & ->). destruct (ref_older i _ (lv + d) k' j o Hi R (ex_intro _ t (ex_intro _ _ (conj Et CO))) RF) as (OL & _). cbn [shape_ok]. rewrite <- Nat.add_assoc. exact OL.
    - destruct VF as (j & p & EJ & EP & _ & -> & EO). destruct CO as (HD & _). destruct (constant_poly_ok L data lv HD) as (p' & EP' & EV). rewrite EP in EP'. apply ok_inj in EP'. subst p'.
      exists lv. split; [lia|]. split; [lia|]. eexists. split; [exact EO|]. split; [exact R|]. unfold vars. cbn [so_variant]. apply EV.
    - destruct VF as (e & EE & ->). unfold incrementing_expr in EE. destruct (2 ^ L <? max); [discriminate|]. apply ok_inj in EE. subst e. fold (incr_terms L max). cbn [shape_ok]. rewrite incr_n_vars.
      destruct SF as [_ ST]. pose proof (ST _ _ _ (info_in L ts i OK Hi) ED) as HM. fold (rows_of (ci_id L i)) in HM. fold n in HM. destruct CO as [E0 _]. split; [lia|].
      exists (fun x => dec L (N.of_nat x)). intros q Hq. rewrite <- Hq. apply incr_padded. lia.
    - subst v. destruct CO as [E0 ES]. destruct (table_size i t _ Hi Et ES ltac:(discriminate)) as [_ H]. specialize (H _ eq_refl). fold n in H. cbn [shape_ok]. destruct CC as [tab CC]. exists tab. rewrite E0, Nat.add_0_r, H. split; [reflexivity|].
      intros q Hq. unfold circuit_mvpoly. cbn [mv_eval]. now rewrite CC.
    - destruct VF as [_ ->]. exact I.
    - destruct VF as [_ ->]. exact I.
  Qed.

  Lemma column_cell V i o r j : In i (all_cols L ts) -> nth_error ss (lk (ci_id L i)) = Some o -> rows L sizes o <> 0 -> r < 2 ^ log2_ceil (rows_of (ci_id L i)) -> j < 2 ^ ci_lv L i ->
    (forall data l j0, ci_def L i = CdConstant L data l -> lk (ci_id L i) = S j0 -> forall y, y < 2 ^ ci_lv L i -> V j0 y = nth y data f0) ->
    (declared L ss sizes V (lk (ci_id L i)) (vars L sizes o) (so_variant o) (r * 2 ^ ci_lv L i + j) <-> cell L ts (log2_ceil (rows_of (ci_id L i))) (view V) i r j).
  Proof.
    intros Hi Eo R Hr Hj HC. destruct (col_vars i o Hi Eo) as [ER EV]. rewrite (EV R). clear EV. rewrite ER in R. destruct (col_oracle i Hi) as [_ (level & v & E & VF)]. rewrite E in Eo. injection Eo as <-.
    cbn [so_variant]. destruct (col_table i Hi) as (t & Et & TI & TO & Ei & CO). pose proof (CP _ _ (info_in L ts i OK Hi)) as CC. unfold compilable in CC. unfold variant_for in VF. unfold column_ok in CO.
    unfold cell. cbv zeta. change (view V (ci_id L i) r j) with (V (lk (ci_id L i)) (r * 2 ^ lv_of (ci_id L i) + j)). rewrite (lv_of_col i Hi).
    set (n := log2_ceil (rows_of (ci_id L i))) in *. set (lv := ci_lv L i) in *. set (x := r * 2 ^ lv + j). set (id := lk (ci_id L i)) in *.
    destruct (pos_div r lv j Hj) as [XD XM]. fold x in XD, XM.
    destruct (ci_def L i) as [l|ks c|k' ix b|k' s size bits|k' pad s nz'|k' off b sv|k' d|data l|max|c|bits g l|bits g l] eqn:ED.
    - destruct VF as [_ ->]. cbn [declared]. tauto.
    - destruct VF as (k0 & coeffs & inner & EL & -> & FA). destruct CO as (CO & W & NV & _). cbn [declared].
      assert (EQM : map (fun k => view V k r j) ks = map (fun k => V (lk k) x) ks).
      { apply map_ext_in. intros k Hk. unfold CompileSpec.view, x. destruct (col_ref i t _ _ _ Hi Et (CO k Hk)) as (i' & Hi' & <- & EL' & _). now rewrite (lv_of_col i' Hi'), EL'. }
      rewrite EQM. destruct (linear_normal_form_correct F c W) as (_ & LN & _).
      destruct (wf_evaluate L c (map (fun k => V (lk k) x) ks) (proj2 W)) as [v0 E0]; [now rewrite map_length|]. pose proof (LN _ _ EL _ _ E0) as EV0.
      rewrite (linear_sum L V x lk ks coeffs inner).
      + rewrite E0, <- EV0. split; [intros <-; reflexivity|intros [= ->]; reflexivity].
      + eapply Forall2_weaken; [|exact FA]. intros cc jc (H1 & o & (H2 & _)). split; [exact H1|]. symmetry. apply LK, H2.
    - destruct VF as (j' & o & RF & _ & ->). destruct CO as (E0 & H1 & CO). destruct (ref_older i _ b k' j' o Hi R (ex_intro _ t (ex_intro _ _ (conj Et CO))) RF) as (_ & EK & EL). cbn [declared].
      assert (J0 : j = 0) by (rewrite E0 in Hj; cbn in Hj; lia).
      assert (XR : x = r) by (unfold x; rewrite E0, J0; cbn; lia). rewrite XR.
      pose proof (projected_pos (V j') n 0 b ix r 0 Hr ltac:(cbn; lia)) as PP. replace (r * 2 ^ 0 + 0) with r in PP by (cbn; lia). replace (n + 0 - 0) with n in PP by lia. replace (n + lv - 0) with n by lia.
      rewrite PP. unfold CompileSpec.view. rewrite EK, EL. rewrite (Nat.mod_small ix) by exact H1. replace (0 + 2 ^ 0 * ix) with ix by (cbn; lia). tauto.
    - destruct VF as (j' & o & RF & _ & ->). destruct CO as (E0 & CO). destruct (ref_older i _ (lv + size) k' j' o Hi R (ex_intro _ t (ex_intro _ _ (conj Et CO))) RF) as (_ & EK & EL). cbn [declared]. subst s. fold lv.
      unfold x. rewrite (projected_pos (V j') n lv size bits r j Hr Hj). unfold CompileSpec.view. rewrite EK, EL. tauto.
    - destruct VF as (j' & o & RF & _ & ->). destruct CO as (E0 & H1 & CO). destruct (ref_older i _ s k' j' o Hi R (ex_intro _ t (ex_intro _ _ (conj Et CO))) RF) as (_ & EK & EL). cbn [declared].
      assert (P1 : 2 ^ s <> 0) by (apply Nat.pow_nonzero; lia). assert (P2 : 2 ^ pad <> 0) by (apply Nat.pow_nonzero; lia).
      assert (X1 : x = (r * 2 ^ pad) * 2 ^ s + j) by (unfold x; rewrite <- E0, Nat.pow_add_r; lia).
      assert (X2 : (x / 2 ^ s) mod 2 ^ pad = j / 2 ^ s).
      { rewrite X1, Nat.div_add_l, Nat.add_comm, Nat.mod_add by assumption. apply Nat.mod_small. apply Nat.div_lt_upper_bound; [assumption|]. rewrite <- Nat.pow_add_r, E0. exact Hj. }
      assert (X3 : x mod 2 ^ s = j mod 2 ^ s) by (rewrite X1, Nat.add_comm, Nat.mod_add by assumption; reflexivity).
      rewrite X2, X3, E0, XD. unfold CompileSpec.view. rewrite EK, EL. replace (j mod 2 ^ s + 2 ^ s * r) with (r * 2 ^ s + j mod 2 ^ s) by lia. tauto.
    - destruct VF as (j' & o & RF & _ & ->). destruct CO as (E0 & H1 & CO). destruct (ref_older i _ lv k' j' o Hi R (ex_intro _ t (ex_intro _ _ (conj Et CO))) RF) as (_ & EK & EL). cbn [declared]. unfold x.
      rewrite (shifted_pos sv b off (V j') r lv j E0 CC Hj). unfold CompileSpec.view. rewrite EK, EL. tauto.
    - destruct VF as (j' & o & RF & _ & ->). destruct (ref_older i _ (lv + d) k' j' o Hi R (ex_intro _ t (ex_intro _ _ (conj Et CO))) RF) as (_ & EK & EL). cbn [declared]. destruct RF as (RF & EO & _).
      assert (LV : so_level o = level_of L ts k').
      { destruct (col_ref i t _ _ _ Hi Et CO) as (i' & Hi' & EI & _). unfold level_of. pose proof (info_in L ts i' OK Hi') as EI'. rewrite EI in EI'. rewrite EI'. apply (exact_level k' CC i' o EI'). now rewrite EK. }
      assert (EQ : sumn (2 ^ d) (fun k => fmul (basis_product L (so_level o) k) (V j' (x * 2 ^ d + k))) = sumn (2 ^ d) (fun e => fmul (basis_product L (level_of L ts k') e) (view V k' r (j * 2 ^ d + e)))).
      { rewrite LV. apply sumn_ext. intros e _. f_equal. unfold CompileSpec.view. rewrite EK, EL. f_equal. unfold x. rewrite Nat.pow_add_r. lia. }
      rewrite <- EQ. split; [intros H; apply H, EO|intros H o' EO'; rewrite EO in EO'; injection EO' as <-; exact H].
    - destruct VF as (j' & p & EJ & EP & _ & -> & EO). cbn [declared]. destruct CO as (HD & _). destruct (constant_poly_ok L data lv HD) as (p' & EP' & EV). rewrite EP in EP'. apply ok_inj in EP'. subst p'.
      rewrite <- (HC data l j' eq_refl EJ j Hj). assert (VO : vars L sizes (mkSym (fst (ci_id L i)) lv l (SymTransparent p)) = lv) by (unfold vars; cbn [so_variant]; apply EV).
      split; [intros H; rewrite (H _ EO), VO, XM; reflexivity|]. intros H o' EO'. rewrite EO in EO'. injection EO' as <-. fold lv. now rewrite VO, XM.
    - destruct VF as (e & EE & ->). unfold incrementing_expr in EE. destruct (2 ^ L <? max); [discriminate|]. apply ok_inj in EE. subst e. fold (incr_terms L max). cbn [declared]. rewrite incr_n_vars.
      destruct SF as [_ ST]. pose proof (ST _ _ _ (info_in L ts i OK Hi) ED) as HM. fold (rows_of (ci_id L i)) in HM. fold n in HM. destruct CO as [E0 _].
      assert (J0 : j = 0) by (rewrite E0 in Hj; cbn in Hj; lia). assert (XR : x = r) by (unfold x; rewrite E0, J0; cbn; lia). rewrite E0, Nat.add_0_r, XR.
      pose proof (incr_padded L max (vertex n r)) as IP. rewrite vertex_length in IP. rewrite IP by exact HM. rewrite mle_on_cube by exact Hr. split; [intros [= ->]; reflexivity|intros ->; reflexivity].
    - subst v. destruct CO as [E0 ES]. cbn [declared]. assert (J0 : j = 0) by (rewrite E0 in Hj; cbn in Hj; lia). assert (XR : x = r) by (unfold x; rewrite E0, J0; cbn; lia). rewrite E0, Nat.add_0_r, XR.
      unfold circuit_mvpoly. cbn [mv_eval]. destruct (evaluate c (vertex n r)) as [v0|]; split; try discriminate; intros [= ->]; reflexivity.
    - destruct VF as [_ ->]. cbn [declared]. tauto.
    - destruct VF as [_ ->]. cbn [declared]. tauto.
  Qed.
End Cells.
