(** C28: the multithreaded transforms return the single-threaded results under every schedule. *)
Require Import Coq.NArith.NArith Coq.setoid_ring.Ring Coq.Arith.Arith Coq.Lists.List Coq.Bool.Bool Coq.Sorting.Permutation Lia.
From Verif Require Import Base.Fld Base.Lists Base.Sums Base.NatBits Base.Par Field.Examples Ntt.NttSpec Ntt.SubspaceTheory
  Ntt.TwiddleModel Ntt.TwiddleProofs Ntt.TwiddleProps Ntt.NttModel Ntt.NttProofs Ntt.NttCompose Ntt.NttProps
  Ntt.ParNttModel Ntt.ParNttProofs.
Import ListNotations.
Local Close Scope N_scope.
Local Open Scope nat_scope.

(** A schedule of the parallel work: for the layout chosen, some interleaving of the strides' column
    butterflies over the given rounds, and some order of the row chunks. *)
Definition schedule (lw lmt : nat) (sh : shape) (rounds : layout -> list nat) (tr : list col_op) (order : list nat) : Prop :=
  forall L, mt_layout lw lmt sh = Some L -> col_schedule L sh (rounds L) tr /\ row_schedule L order.

Section Props.
  Variable F : field.
  Hypothesis H2 : char2 F.
  Local Open Scope fld_scope.
  Variable basis : list F.
  Hypothesis BI : lin_indep basis.
  Hypothesis B1 : nth 0 basis 0 = 1.
  Variable ts : list (twiddle F).
  Hypothesis HT : tables F basis ts.
  Let d := length basis.

  Lemma seq_shift_rev a n : rev (seq a n) = map (fun i => (i + a)%nat) (rev (seq 0 n)).
  Proof.
    rewrite map_rev. f_equal. rewrite <- (Nat.add_0_r a) at 1. generalize 0%nat. induction n as [|n IH]; intros b; [reflexivity|].
    cbn. f_equal; [lia|]. rewrite <- IH. f_equal. lia.
  Qed.
  Lemma seq_shift_add a n : seq a n = map (fun i => (i + a)%nat) (seq 0 n).
  Proof. rewrite <- (rev_involutive (seq a n)), seq_shift_rev, map_rev, rev_involutive. reflexivity. Qed.

  Section Big.
  Variables (lw ln lx ly lz coset cb skip : nat) (L : layout).
  Hypothesis (G : good_layout lw ln lx ly lz L).
  Hypothesis (HC : (coset < 2 ^ cb)%nat) (HD : (ly + cb <= d)%nat) (HS : (skip <= ly)%nat) (H1 : (1 <= ln)%nat).
  Hypothesis TOT : (lx + ly + lz = ln + lw)%nat.
  Let sh := mkShape lx ly lz.
  Let sl := skipn (d - (ly + cb)) ts.
  Let par := par_rounds L.
  Let ry := row_log_y L.
  Let w := log_width L.
  Let h := log_height L.
  Let Tf := Tf F basis ly coset cb.

  Lemma cols_rounds bf rounds tr D : (forall i, In i rounds -> (i < par)%nat) -> col_schedule L sh rounds tr ->
    length D = (2 ^ ln)%nat ->
    cols lw d ts coset cb bf L tr D = of_opt (ofold (big_round bf lw sl sh coset) (map (fun i => (i + ry)%nat) rounds) D).
  Proof.
    intros HR SCH LD. unfold cols. destruct G as [Ghw Gw Gx Gpar Grz Gry Gly Glsl Grow Gcol Gz].
    rewrite (proj2 (Nat.eqb_eq _ _)).
    2:{ rewrite LD, <- Nat.pow_add_r. f_equal. lia. }
    unfold underflows. rewrite (proj2 (Nat.ltb_ge _ _)) by lia. f_equal.
    rewrite (col_phase_rounds F lw bf L _ coset Glsl sh rounds tr SCH). rewrite ofold_map.
    apply ofold_ext. intros D0 i Hi. specialize (HR i Hi). unfold par in HR.
    destruct (slice_repr F H2 basis BI B1 ts HT (ly + cb) (i + ry)) as [t [N R]]; [exact HD|unfold ry; lia|].
    apply (col_round_big F lw bf L _ sl lx ly lz coset i (Tf (i + ry)) t ln); auto.
    - rewrite nth_error_skipn in N. rewrite nth_error_skipn. fold d in N. rewrite <- N. f_equal. unfold ry. lia.
    - intros k Hk. rewrite (tw_get_spec F t (ly + cb - S (i + ry)) 0 _ _ R).
      + f_equal. unfold Tf, NttProps.Tf, T0. replace (ly - 1 - (i + ry))%nat with (par_rounds L - 1 - i)%nat by (unfold ry; lia).
        rewrite (Radd_0_l (f_ring F)). reflexivity.
      + replace (ly + cb - S (i + ry))%nat with ((par_rounds L - 1 - i) + cb)%nat by (unfold ry; lia). now apply mix_lt.
  Qed.

  Let Tc (c : nat) := NttProps.Tf F basis ry (coset * 2 ^ par + c mod 2 ^ par) (cb + par).

  Lemma Tc_eq c i k : (i < ry)%nat -> Tc c i k = Tf i ((c mod 2 ^ par) * 2 ^ (ry - 1 - i) + k)%nat.
  Proof.
    intros Hi. destruct G. unfold Tc, Tf, NttProps.Tf, T0.
    replace (ry + (cb + par))%nat with (ly + cb)%nat by (unfold ry, par in *; lia). f_equal.
    replace (ly - 1 - i)%nat with (par + (ry - 1 - i))%nat by (unfold ry, par in *; lia). rewrite Nat.pow_add_r. lia.
  Qed.

  Lemma chunk_valid c : valid lw d (2 ^ w) (mkShape lx ry (log_row_z L)) (coset * 2 ^ par + c mod 2 ^ par) (cb + par) (skip - par).
  Proof.
    destruct G. constructor; cbn [log_x log_y log_z].
    - unfold ry, par in *. lia.
    - rewrite (Nat.add_comm cb). apply mix_lt; auto. apply mod_lt.
    - unfold ry, par in *. lia.
    - exists w. split; auto.
  Qed.

  Lemma big_transform rounds lx' ly' lz' coset' cb' skip' (D : list (list F)) ln' : (1 <= ln')%nat ->
    length D = (2 ^ ln')%nat -> valid lw d (length D) (mkShape lx' ly' lz') coset' cb' skip' ->
    transform rounds lw (length ts) ts D (mkShape lx' ly' lz') coset' cb' skip' = of_opt (rounds (skipn (d - (ly' + cb')) ts) D).
  Proof.
    intros L1 LD V. unfold transform. cbv zeta. rewrite (tables_length F H2 basis BI B1 ts HT). fold d.
    destruct (check_params_valid lw d D (mkShape lx' ly' lz') coset' cb' skip') as [[_ CP]|[NV _]]; [|now elim NV].
    rewrite CP. cbn [rbind log_y]. destruct D as [|a [|b D]]; auto.
    - cbn in LD. pose proof (pow2_pos ln'). lia.
    - cbn in LD. destruct ln' as [|ln']; [lia|]. rewrite pow2_S in LD. pose proof (pow2_pos ln'). lia.
  Qed.

  Lemma lor_coset c : Nat.lor (Nat.shiftl coset (par_rounds L)) (c mod 2 ^ par_rounds L) = (coset * 2 ^ par + c mod 2 ^ par)%nat.
  Proof. rewrite shl_mul. apply lor_shiftl. apply mod_lt. Qed.

  Lemma D_chunks (D : list (list F)) : length D = (2 ^ ln)%nat -> length D = (2 ^ h * 2 ^ w)%nat.
  Proof. intros ->. rewrite <- Nat.pow_add_r. f_equal. destruct G. unfold h, w. lia. Qed.

  Lemma mt_forward_big tr order D : wfd lw D -> length D = (2 ^ ln)%nat ->
    col_schedule L sh (fwd_par_rounds L skip) tr -> row_schedule L order ->
    exists D1 R, cols lw d ts coset cb butterfly L tr D = Ok D1 /\ length D1 = length D /\ wfd lw D1 /\
      ofold (big_round inv_butterfly lw sl sh coset) (map (fun i => (i + ry)%nat) (seq 0 (par - skip))) D1 = Some D /\
      rfold (row_step (fun d0 sh' c' cb' sk' => forward_transform lw (length ts) ts d0 sh' c' cb' sk') L sh coset cb skip) order D1 = Ok R /\
      length R = length D /\
      (forall c, (c < 2 ^ h)%nat -> inverse_transform lw (length ts) ts (chunk R (2 ^ w) c) (mkShape lx ry (log_row_z L))
            (coset * 2 ^ par + c mod 2 ^ par) (cb + par) (skip - par) = Ok (chunk D1 (2 ^ w) c)) /\
      forward_transform lw (length ts) ts D sh coset cb skip = Ok R.
  Proof.
    intros WD LD CS RS. pose proof G as [Ghw Gw Gx Gpar Grz Gry Gly Glsl Grow Gcol Gz]. fold par ry w h in Ghw, Gw, Gx, Gpar, Gry, Gly, Grow, Gcol, Gz.
    set (len := (2 ^ (Nat.max (lx + ly + lz) (S lw) - lw))%nat).
    assert (LL : (2 ^ ln)%nat = len) by (unfold len; f_equal; lia).
    assert (IR : forall i, In i (fwd_par_rounds L skip) -> (i < par)%nat).
    { intros i Hi. unfold fwd_par_rounds in Hi. apply in_rev, in_seq in Hi. unfold par. lia. }
    rewrite (cols_rounds butterfly (fwd_par_rounds L skip) tr D IR CS LD).
    unfold fwd_par_rounds. fold par. rewrite <- seq_shift_rev.
    assert (IB : forall i, In i (rev (seq ry (par - skip))) -> (lw <= lx + i)%nat /\ (i < ly)%nat).
    { intros i Hi. apply in_rev, in_seq in Hi. assert (PN : par <> 0%nat) by lia. specialize (Gcol PN). lia. }
    destruct (rounds_spec F lw (big_round butterfly lw sl sh coset) fwd_bf lx ly Tf len (lx + ly + lz) (rev (seq ry (par - skip))))
      with (D := D) as [D1 [E1 [L1 [W1 S1]]]]; auto; try congruence.
    { intros i Hi. apply IB in Hi. lia. }
    { intros i D0 Hi W0 L0. destruct (IB i Hi). apply (big_ok F H2 basis BI B1 ts HT lw lx ly lz coset cb skip HC HD HS); auto. apply lanewise_fwd. }
    destruct (rounds_undo F lw (big_round butterfly lw sl sh coset) (big_round inv_butterfly lw sl sh coset) len
       (rev (seq ry (par - skip)))) with (D := D) as [D1' [E1' [_ [_ R1]]]]; auto; try congruence.
    { intros i D0 Hi W0 L0. destruct (IB i Hi). apply (big_undo F H2 basis BI B1 ts HT lw lx ly lz coset cb skip HC HD HS); auto using undo_fwd, undo_inv. }
    rewrite E1 in E1'. apply some_inj in E1'. subst D1'. rewrite rev_involutive in R1.
    exists D1. rewrite E1. cbn [of_opt].
    (* rows *)
    assert (LD1 : length D1 = (2 ^ h * 2 ^ w)%nat) by (apply D_chunks; congruence).
    assert (PWH : (2 ^ h * 2 ^ w = 2 ^ ln)%nat) by (rewrite <- Nat.pow_add_r; f_equal; lia).
    assert (CL : forall c, (c < 2 ^ h)%nat -> length (chunk D1 (2 ^ w) c) = (2 ^ w)%nat).
    { intros c Hc. apply chunk_length. rewrite LD1. nia. }
    assert (CORE : forall c, exists out, (c < 2 ^ h)%nat ->
       forward_transform lw (length ts) ts (chunk D1 (2 ^ w) c) (mkShape lx ry (log_row_z L)) (coset * 2 ^ par + c mod 2 ^ par) (cb + par) (skip - par) = Ok out /\
       inverse_transform lw (length ts) ts out (mkShape lx ry (log_row_z L)) (coset * 2 ^ par + c mod 2 ^ par) (cb + par) (skip - par) = Ok (chunk D1 (2 ^ w) c) /\
       length out = (2 ^ w)%nat /\ wfd lw out /\
       forall s, (s < 2 ^ (w + lw))%nat -> sc lw out s = Rs F fwd_bf lx ry (Tc c) (rev (seq 0 (Nat.min ry (ly - skip)))) (sc lw (chunk D1 (2 ^ w) c)) s).
    { intros c. destruct (Nat.lt_ge_cases c (2 ^ h)) as [Hc|Hc]; [|exists []; lia].
      pose proof (chunk_valid c) as V. pose proof (v_skip _ _ _ _ _ _ _ V) as V1. pose proof (v_coset _ _ _ _ _ _ _ V) as V2.
      pose proof (v_dom _ _ _ _ _ _ _ V) as V3. cbn [log_y] in V1, V3.
      assert (LEN : length (chunk D1 (2 ^ w) c) = (2 ^ (Nat.max (lx + ry + log_row_z L) (S lw) - lw))%nat).
      { rewrite CL by auto. f_equal. lia. }
      destruct (forward_core F H2 basis BI B1 ts HT lw lx ry (log_row_z L) _ _ _ V2 V3 V1 (chunk D1 (2 ^ w) c))
        as [out [EO [LO [WO [IO SO]]]]]; [now apply chunk_wfd|auto|].
      exists out. intros _. rewrite CL in LO by auto.
      assert (V' : forall D0 : list (list F), length D0 = (2 ^ w)%nat -> valid lw d (length D0) (mkShape lx ry (log_row_z L)) (coset * 2 ^ par + c mod 2 ^ par) (cb + par) (skip - par)).
      { intros D0 ->. exact V. }
      unfold forward_transform, inverse_transform.
      rewrite (big_transform _ lx ry (log_row_z L) _ _ _ (chunk D1 (2 ^ w) c) w) by auto.
      rewrite (big_transform _ lx ry (log_row_z L) _ _ _ out w) by auto.
      fold d in EO, IO. rewrite EO, IO. cbn [of_opt]. split; [reflexivity|]. split; [reflexivity|].
      split; auto. split; auto. intros s Hs. rewrite SO by (now replace (lx + ry + log_row_z L)%nat with (w + lw)%nat by lia).
      replace (ry - (skip - par))%nat with (Nat.min ry (ly - skip)) by lia. reflexivity. }
    assert (OUT : exists out : nat -> list (list F), forall c, (c < 2 ^ h)%nat ->
       forward_transform lw (length ts) ts (chunk D1 (2 ^ w) c) (mkShape lx ry (log_row_z L)) (coset * 2 ^ par + c mod 2 ^ par) (cb + par) (skip - par) = Ok (out c) /\
       inverse_transform lw (length ts) ts (out c) (mkShape lx ry (log_row_z L)) (coset * 2 ^ par + c mod 2 ^ par) (cb + par) (skip - par) = Ok (chunk D1 (2 ^ w) c) /\
       length (out c) = (2 ^ w)%nat /\ wfd lw (out c) /\
       forall s, (s < 2 ^ (w + lw))%nat -> sc lw (out c) s = Rs F fwd_bf lx ry (Tc c) (rev (seq 0 (Nat.min ry (ly - skip)))) (sc lw (chunk D1 (2 ^ w) c)) s).
    { exists (fun c => match forward_transform lw (length ts) ts (chunk D1 (2 ^ w) c) (mkShape lx ry (log_row_z L)) (coset * 2 ^ par + c mod 2 ^ par) (cb + par) (skip - par) with Ok o => o | _ => [] end).
      intros c Hc. destruct (CORE c) as [out HO]. destruct (HO Hc) as [Q HO']. rewrite Q. auto. }
    destruct OUT as [out HO].
    destruct (rows_perm F (fun c D0 => forward_transform lw (length ts) ts D0 (mkShape lx ry (log_row_z L)) (coset * 2 ^ par + c mod 2 ^ par) (cb + par) (skip - par))
      out (2 ^ w) (2 ^ h) order D1) as [R [ER [LR HR]]]; auto.
    { intros c Hc. destruct (HO c Hc) as [Q1 [_ [Q2 _]]]. auto. }
    assert (WR : wfd lw R).
    { apply (wfd_of_chunks F lw R (2 ^ w) (2 ^ h)); [congruence|]. intros c Hc. rewrite HR by auto. apply HO. auto. }
    exists R. split; [reflexivity|]. split; [congruence|]. split; [exact W1|].
    split; [rewrite <- seq_shift_add; exact R1|].
    split.
    { rewrite <- ER. clear. generalize D1. induction order as [|c order IH]; intros D0; [reflexivity|]. cbn [rfold].
      unfold row_step at 1. cbv zeta. rewrite lor_coset. fold par w ry. cbn [log_x sh].
      destruct (forward_transform lw (length ts) ts (chunk D0 (2 ^ w) c) _ _ _ _); cbn [rbind]; auto. }
    split; [congruence|].
    split. { intros c Hc. rewrite HR by auto. apply HO. auto. }
    destruct (forward_core F H2 basis BI B1 ts HT lw lx ly lz coset cb skip HC HD HS D) as [D' [E' [L' [W' [_ S']]]]]; auto; [rewrite LD; exact LL|].
    assert (VV : valid lw d (length D) sh coset cb skip).
    { constructor; auto. exists ln. split; auto. }
    unfold forward_transform. unfold sh. rewrite (big_transform _ lx ly lz coset cb skip D ln) by auto.
    fold d in E'. rewrite E'. cbn [of_opt]. f_equal.
    apply (sc_ext F lw D' R ln); auto; try congruence.
    intros s Hs. rewrite S' by (now rewrite TOT).
    set (c := (s / 2 ^ (w + lw))%nat). set (s' := (s mod 2 ^ (w + lw))%nat).
    assert (Hc : (c < 2 ^ h)%nat) by (apply div_lt; now replace (w + lw + h)%nat with (ln + lw)%nat by lia).
    assert (Hs' : (s' < 2 ^ (w + lw))%nat) by apply mod_lt.
    assert (ES : s = (c * 2 ^ (w + lw) + s')%nat) by apply mix_dm.
    rewrite ES. rewrite <- (sc_chunk F lw R) by auto. rewrite HR by auto.
    destruct (HO c Hc) as [_ [_ [_ [_ SO]]]]. rewrite SO by auto.
    replace (rev (seq 0 (ly - skip))) with (rev (seq ry (par - skip)) ++ rev (seq 0 (Nat.min ry (ly - skip)))).
    2:{ rewrite <- rev_app_distr. f_equal. destruct (Nat.le_gt_cases (ly - skip) ry) as [Q|Q].
        - rewrite Nat.min_r by auto. replace (par - skip)%nat with 0%nat by lia. cbn. now rewrite app_nil_r.
        - rewrite Nat.min_l by lia. replace (ly - skip)%nat with (ry + (par - skip))%nat by lia. now rewrite seq_app. }
    rewrite Rs_app.
    assert (IRY : forall i, In i (rev (seq 0 (Nat.min ry (ly - skip)))) -> (i < ry)%nat).
    { intros i Hi. apply in_rev, in_seq in Hi. lia. }
    rewrite (Rs_chunk F fwd_bf lx ly ry par (log_row_z L) (w + lw) _ (Tc c) c); auto; try lia.
    2:{ intros i k Hi. now apply Tc_eq. }
    apply (Rs_ext F _ _ _ _ _ (w + lw)); auto.
    - intros i Hi. apply IRY in Hi. lia.
    - intros s0 Hs0. rewrite (sc_chunk F lw D1) by auto. symmetry. rewrite S1; auto.
      replace (lx + ly + lz)%nat with ((w + lw) + h)%nat by lia. now apply mix_lt.
  Qed.

  Lemma mt_inverse_big tr order D : wfd lw D -> length D = (2 ^ ln)%nat ->
    col_schedule L sh (inv_par_rounds L skip) tr -> row_schedule L order ->
    exists E D1, inverse_transform lw (length ts) ts D sh coset cb skip = Ok E /\
      rfold (row_step (fun d0 sh' c' cb' sk' => inverse_transform lw (length ts) ts d0 sh' c' cb' sk') L sh coset cb skip) order D = Ok D1 /\
      cols lw d ts coset cb inv_butterfly L tr D1 = Ok E.
  Proof.
    intros WD LD CS RS. pose proof G as [Ghw Gw Gx Gpar Grz Gry Gly Glsl Grow Gcol Gz]. fold par ry w h in Ghw, Gw, Gx, Gpar, Gry, Gly, Grow, Gcol, Gz.
    assert (VV : valid lw d (length D) sh coset cb skip).
    { constructor; auto. exists ln. split; auto. }
    assert (LL : length D = (2 ^ (Nat.max (lx + ly + lz) (S lw) - lw))%nat) by (rewrite LD; f_equal; lia).
    destruct (inverse_core F H2 basis BI B1 ts HT lw lx ly lz coset cb skip HC HD HS D WD LL) as [E [EE [LE [WE FE]]]].
    (* any column schedule will do for the forward direction *)
    destruct (mt_forward_big (concat (map (col_job L sh (fwd_par_rounds L skip)) (strides L))) order E) as [D1 [R [EC [LD1 [WD1 [UN [ER [LR [HR FR]]]]]]]]]; auto; [congruence| |].
    { unfold col_schedule. generalize (map (col_job L sh (fwd_par_rounds L skip)) (strides L)). intros js. apply shuffle_concat. }
    assert (RD : R = D).
    { unfold forward_transform, sh in FR. rewrite (big_transform _ lx ly lz coset cb skip E ln) in FR; auto; try congruence.
      - fold d in FE. rewrite FE in FR. cbn [of_opt] in FR. congruence.
      - rewrite LE. exact VV. }
    subst R. exists E, D1.
    assert (LEN : length D = (2 ^ h * 2 ^ w)%nat) by now apply D_chunks.
    split.
    { unfold inverse_transform, sh. rewrite (big_transform _ lx ly lz coset cb skip D ln) by auto. fold d in EE. now rewrite EE. }
    split.
    { destruct (rows_perm F (fun c D0 => inverse_transform lw (length ts) ts D0 (mkShape lx ry (log_row_z L)) (coset * 2 ^ par + c mod 2 ^ par) (cb + par) (skip - par))
        (fun c => chunk D1 (2 ^ w) c) (2 ^ w) (2 ^ h) order D) as [R [ER' [LR' HR']]]; auto.
      { intros c Hc. split; [now apply HR|]. apply chunk_length. assert (length D1 = (2 ^ h * 2 ^ w)%nat) as -> by congruence. nia. }
      transitivity (Ok R).
      - rewrite <- ER'. clear. generalize D. induction order as [|c order IH]; intros D0; [reflexivity|]. cbn [rfold].
        unfold row_step at 1. cbv zeta. rewrite lor_coset. fold par w ry. cbn [log_x sh].
        destruct (inverse_transform lw (length ts) ts (chunk D0 (2 ^ w) c) _ _ _ _); cbn [rbind]; auto.
      - f_equal. apply (chunks_ext F R D1 (2 ^ w) (2 ^ h)); try congruence. intros c Hc. now rewrite HR'. }
    rewrite (cols_rounds inv_butterfly (inv_par_rounds L skip) tr D1); auto.
    - unfold inv_par_rounds. fold par. rewrite UN. reflexivity.
    - intros i Hi. unfold inv_par_rounds in Hi. apply in_seq in Hi. unfold par. lia.
    - congruence.
  Qed.
  End Big.

  (** C28: whatever the thread limit and the schedule, the multithreaded transforms return what the
      single-threaded ones do (results and refusals).  The exception is a buffer of two packed
      elements that the tensor does not fill. *)
  Theorem multithreaded_forward lw lmt sh coset cb skip tr order data : well_packed lw data ->
    ~ (length data = 2%nat /\ (log_x sh + log_y sh + log_z sh <= lw)%nat) ->
    schedule lw lmt sh (fun L => fwd_par_rounds L skip) tr order ->
    mt_forward lw lmt (length ts) ts sh coset cb skip tr order data = forward_transform lw (length ts) ts data sh coset cb skip.
  Proof.
    intros WP NS SCH. assert (LT := tables_length F H2 basis BI B1 ts HT). fold d in LT.
    destruct (check_params_valid lw d data sh coset cb skip) as [[V CP]|[NV CP]].
    2:{ destruct (ntt_rejects F H2 basis BI B1 ts HT lw data sh coset cb skip NV) as [E _]. rewrite E.
        unfold mt_forward. rewrite LT, CP. reflexivity. }
    unfold mt_forward. rewrite LT, CP. cbn [rbind]. pose proof V as [VS VC VD [ln [VL VZ]]].
    destruct data as [|a [|b rest]].
    - exfalso. cbn in VL. pose proof (pow2_pos ln). lia.
    - destruct (Nat.eqb_spec lw 0) as [->|NW]; [|reflexivity].
      unfold forward_transform, transform. cbv zeta. rewrite CP. reflexivity.
    - set (D := a :: b :: rest) in *. destruct sh as [lx ly lz]. cbn [log_x log_y log_z] in *.
      assert (L1 : (1 <= ln)%nat) by (destruct ln; [cbn in VL; lia|lia]).
      assert (TOT : (lx + ly + lz = ln + lw)%nat).
      { destruct VZ as [Q|[Q1 Q2]]; auto. assert (ln = 1)%nat by lia. subst ln. cbn [Nat.pow] in VL. lia. }
      destruct (mt_layout_good lw lmt ln lx ly lz L1 TOT) as [L [EL G]]. rewrite EL.
      destruct (SCH L EL) as [CS RS].
      destruct (mt_forward_big lw ln lx ly lz coset cb skip L G VC VD VS L1 TOT tr order D WP VL CS RS)
        as [D1 [R [EC [_ [_ [_ [ER [_ [_ EF]]]]]]]]].
      rewrite LT in ER, EF. rewrite EC. cbn [rbind]. rewrite ER, EF. reflexivity.
  Qed.

  Theorem multithreaded_inverse lw lmt sh coset cb skip tr order data : well_packed lw data ->
    ~ (length data = 2%nat /\ (log_x sh + log_y sh + log_z sh <= lw)%nat) ->
    schedule lw lmt sh (fun L => inv_par_rounds L skip) tr order ->
    mt_inverse lw lmt (length ts) ts sh coset cb skip tr order data = inverse_transform lw (length ts) ts data sh coset cb skip.
  Proof.
    intros WP NS SCH. assert (LT := tables_length F H2 basis BI B1 ts HT). fold d in LT.
    destruct (check_params_valid lw d data sh coset cb skip) as [[V CP]|[NV CP]].
    2:{ destruct (ntt_rejects F H2 basis BI B1 ts HT lw data sh coset cb skip NV) as [_ E]. rewrite E.
        unfold mt_inverse. rewrite LT, CP. reflexivity. }
    unfold mt_inverse. rewrite LT, CP. cbn [rbind]. pose proof V as [VS VC VD [ln [VL VZ]]].
    destruct data as [|a [|b rest]].
    - exfalso. cbn in VL. pose proof (pow2_pos ln). lia.
    - destruct (Nat.eqb_spec lw 0) as [->|NW]; [|reflexivity].
      unfold inverse_transform, transform. cbv zeta. rewrite CP. reflexivity.
    - set (D := a :: b :: rest) in *. destruct sh as [lx ly lz]. cbn [log_x log_y log_z] in *.
      assert (L1 : (1 <= ln)%nat) by (destruct ln; [cbn in VL; lia|lia]).
      assert (TOT : (lx + ly + lz = ln + lw)%nat).
      { destruct VZ as [Q|[Q1 Q2]]; auto. assert (ln = 1)%nat by lia. subst ln. cbn [Nat.pow] in VL. lia. }
      destruct (mt_layout_good lw lmt ln lx ly lz L1 TOT) as [L [EL G]]. rewrite EL.
      destruct (SCH L EL) as [CS RS].
      destruct (mt_inverse_big lw ln lx ly lz coset cb skip L G VC VD VS L1 TOT tr order D WP VL CS RS)
        as [E [D1 [EI [ER EC]]]].
      rewrite LT in ER, EI. rewrite ER. cbn [rbind]. rewrite EC, EI. reflexivity.
  Qed.

  (** In the excepted case the single-threaded transform works and the multithreaded one panics,
      whatever the schedule. *)
  Theorem multithreaded_two_elements_refuted lw lmt sh coset cb skip tr order data : well_packed lw data ->
    valid lw (length basis) (length data) sh coset cb skip ->
    length data = 2%nat -> (log_x sh + log_y sh + log_z sh <= lw)%nat ->
    mt_forward lw lmt (length ts) ts sh coset cb skip tr order data = Panic /\
    exists out, forward_transform lw (length ts) ts data sh coset cb skip = Ok out.
  Proof.
    intros WP V L2 LE. split.
    - unfold mt_forward. rewrite (tables_length F H2 basis BI B1 ts HT).
      destruct (check_params_valid lw d data sh coset cb skip) as [[_ CP]|[NV _]]; [|now elim NV].
      fold d. rewrite CP. cbn [rbind]. destruct data as [|a [|b [|c rest]]]; try discriminate.
      unfold mt_layout, underflows. cbv zeta. rewrite (proj2 (Nat.ltb_lt _ _)) by lia. reflexivity.
    - destruct (ntt_roundtrip F H2 basis BI B1 ts HT lw data sh coset cb skip WP V) as [[out [E _]] _]. eauto.
  Qed.
End Props.

(** Two columns of eight entries in packed elements of two scalars with a limit of four threads: the
    layout has column rounds and rows; run with the strides in reverse order and the chunks in
    reverse order. *)
Example multithreaded_ex :
  match otf_generate (els [1; 2; 4; 8]%N) with
  | Ok ts =>
    let data := [els [1; 2]; els [3; 4]; els [5; 6]; els [7; 8]; els [9; 10]; els [11; 12]; els [13; 14]; els [15; 1]]%N in
    let sh := mkShape 1 3 0 in
    match mt_layout 1 2 sh with
    | Some L =>
      let tr := concat (rev (map (col_job L sh (fwd_par_rounds L 0)) (strides L))) in
      let order := rev (seq 0 (2 ^ log_height L)) in
      log_height L = 2 /\ length (strides L) = 2 /\ length tr = 8 /\
      match mt_forward 1 2 4 ts sh 1 1 0 tr order data, forward_transform 1 4 ts data sh 1 1 0 with
      | Ok a, Ok b => map (map bits) a = map (map bits) b /\ map (map bits) a <> map (map bits) data
      | _, _ => False end
    | None => False end
  | _ => False end.
Proof. vm_compute. repeat split; discriminate. Qed.

(** That schedule is one of those quantified over. *)
Example multithreaded_ex_schedule :
  schedule 1 2 (mkShape 1 3 0) (fun L => fwd_par_rounds L 0)
    (concat (rev (map (col_job (mkLayout 2 1 2 0 0 1) (mkShape 1 3 0) [1; 0]) [0; 1])))
    [3; 2; 1; 0].
Proof.
  intros L E. cbv in E. inversion E; subst. clear E. split.
  - unfold col_schedule, strides, fwd_par_rounds. cbn [log_width log_stride_len par_rounds Nat.sub Nat.pow seq Nat.mul Nat.add rev app map concat].
    match goal with |- shuffle [?a; ?b] _ => set (j0 := a); set (j1 := b) end. rewrite app_nil_r.
    assert (G : forall (r : list col_op) l, shuffle [l; r] (r ++ l)).
    { induction r as [|o r IH]; intros l.
      - cbn [app]. induction l as [|o l IH]; [constructor; now intros j [<-|[<-|[]]]|]. apply (shuffle_step []). exact IH.
      - cbn [app]. apply (shuffle_step [l] o r []). apply IH. }
    apply G.
  - unfold row_schedule. cbn. apply NoDup_Permutation.
    + repeat constructor; cbn; intuition discriminate.
    + apply (seq_NoDup 4 0).
    + intros x. cbn. intuition.
Qed.
