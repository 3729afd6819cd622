(** The round evaluations of a sumcheck prover are the sums over the hypercube. *)
Require Import Coq.setoid_ring.Ring Coq.Arith.Arith Coq.Lists.List Coq.Bool.Bool Coq.Sorting.Permutation Lia.
From Verif Require Import Base.Fld Base.Lists Base.Sums Base.NatBits Math.MleSpec Math.MleModel Math.MleProofs Math.MleProps
  Math.TensorProps Math.UnivariateModel Math.UnivariateProps Math.SubcubeModel Math.SubcubeProps
  Sumcheck.SumcheckModel Sumcheck.SumcheckSpec Sumcheck.SumcheckProofs Sumcheck.StateModel Sumcheck.FoldProofs.
Import ListNotations.

Lemma map_combine_seq {A B C} (f : A * B -> C) (a : list A) (b : list B) da db : length a = length b ->
  map f (combine a b) = map (fun j => f (nth j a da, nth j b db)) (seq 0 (length a)).
Proof.
  revert b. induction a as [|x a IH]; intros [|y b] H; try discriminate; [reflexivity|].
  cbn [combine map length seq]. f_equal. rewrite IH by (cbn in H; lia). rewrite <- seq_shift, map_map. reflexivity.
Qed.

Lemma map_seq_nth {A B} (f : A -> B) (l : list A) d : map f l = map (fun j => f (nth j l d)) (seq 0 (length l)).
Proof.
  induction l as [|x l IH]; [reflexivity|]. cbn [map length seq]. f_equal. rewrite IH, <- seq_shift, map_map. reflexivity.
Qed.

Lemma combine_nth_lt {A B} (a : list A) (b : list B) i da db : (i < length a)%nat -> (i < length b)%nat ->
  nth i (combine a b) (da, db) = (nth i a da, nth i b db).
Proof. revert b i. induction a as [|x a IH]; intros [|y b] [|i] H1 H2; cbn in *; try lia; auto. apply IH; lia. Qed.

Section Proofs.
  Variable F : field.
  Variable lw mb : nat.
  Variable junk : nat -> list F.
  Hypothesis junk_length : forall n, length (junk n) = n.
  Local Open Scope fld_scope.
  Add Ring Fring : (f_ring F).

  Notation cur := (cur F).
  Notation rep := (rep F lw).

  Lemma folded_slice_ok (evals : list F) suffix a vars :
    let s := folded_slice lw evals suffix (a * 2 ^ vars) vars in
    length s = (2 ^ (vars - lw) * 2 ^ lw)%nat /\
    forall i, (i < 2 ^ vars)%nat -> nth i s 0 = if (a * 2 ^ vars + i <? length evals)%nat then nth (a * 2 ^ vars + i) evals 0 else suffix.
  Proof.
    cbv zeta. unfold folded_slice. destruct (Nat.leb_spec lw vars) as [L|L].
    - set (got := firstn (2 ^ vars) (skipn (a * 2 ^ vars) evals)).
      assert (LG : length got = Nat.min (2 ^ vars) (length evals - a * 2 ^ vars)) by (unfold got; now rewrite firstn_length, skipn_length).
      rewrite app_length, repeat_length, <- Nat.pow_add_r. replace (vars - lw + lw)%nat with vars by lia. split; [lia|].
      intros i Hi. destruct (Nat.ltb_spec (a * 2 ^ vars + i) (length evals)) as [B|B].
      + rewrite app_nth1 by lia. unfold got. rewrite nth_firstn_lt by auto. apply nth_skipn'.
      + rewrite app_nth2 by lia. apply nth_repeat0. lia.
    - replace (vars - lw)%nat with 0%nat by lia. assert (2 ^ vars < 2 ^ lw)%nat by (now apply pow2_lt).
      rewrite app_length, map_length, seq_length, repeat_length. split; [cbn; lia|].
      intros i Hi. rewrite app_nth1 by (now rewrite map_length, seq_length). rewrite nth_map_seq by auto.
      rewrite NatBits.lor_shiftl by auto.
      destruct (Nat.ltb_spec (a * 2 ^ vars + i) (length evals)) as [B|B].
      + now rewrite (nth_error_nth' evals 0) by auto.
      + now rewrite (proj2 (nth_error_None _ _)).
  Qed.

  Lemma deinterleave_ok (s : list F) sv : length s = (2 ^ (sv + 1 - lw) * 2 ^ lw)%nat ->
    let e := deinterleave lw s in
    length (fst e) = (2 ^ (sv - lw) * 2 ^ lw)%nat /\ length (snd e) = (2 ^ (sv - lw) * 2 ^ lw)%nat /\
    forall i, (i < 2 ^ sv)%nat -> nth i (fst e) 0 = nth (2 * i) s 0 /\ nth i (snd e) 0 = nth (2 * i + 1) s 0.
  Proof.
    intros HL. cbv zeta. unfold deinterleave. pose proof (pow2_pos lw) as Pw.
    rewrite HL, Nat.div_mul by lia.
    set (s' := if (2 ^ (sv + 1 - lw) =? 1)%nat then s ++ repeat 0 (2 ^ lw) else s).
    assert (LS : (length s' / 2 = 2 ^ (sv - lw) * 2 ^ lw)%nat /\ forall i, (i < 2 ^ S sv)%nat -> nth i s' 0 = nth i s 0).
    { unfold s'. destruct (Nat.eqb_spec (2 ^ (sv + 1 - lw)) 1) as [E|E].
      - assert (sv + 1 - lw = 0)%nat.
        { destruct (sv + 1 - lw)%nat as [|z] eqn:Z; auto. rewrite pow2_S in E. pose proof (pow2_pos z). lia. }
        replace (sv - lw)%nat with 0%nat by lia. rewrite app_length, repeat_length, HL, E. split.
        + replace (1 * 2 ^ lw + 2 ^ lw)%nat with (2 ^ lw * 2)%nat by lia. rewrite Nat.div_mul by lia. cbn; lia.
        + intros i Hi. rewrite app_nth1; auto. rewrite HL, E. assert (2 ^ S sv <= 2 ^ lw)%nat by (apply pow2_le; lia). lia.
      - assert (sv + 1 - lw <> 0)%nat by (intros Z; rewrite Z in E; now apply E).
        split; auto. rewrite HL. replace (sv + 1 - lw)%nat with (S (sv - lw)) by lia.
        rewrite pow2_S. replace ((2 ^ (sv - lw) + 2 ^ (sv - lw)) * 2 ^ lw)%nat with (2 ^ (sv - lw) * 2 ^ lw * 2)%nat by lia.
        now rewrite Nat.div_mul by lia. }
    destruct LS as [L1 L2]. cbn [fst snd]. rewrite !map_length, !seq_length, L1. split; auto. split; auto.
    pose proof (sv_len sv lw) as SL. intros i Hi. rewrite !nth_map_seq by lia.
    rewrite !L2 by (rewrite pow2_S; lia). auto.
  Qed.

  (** what both accessors must return *)
  Definition accessed (o : order) (v : nat -> F) (p : list F) (k sv idx : nat) (e : list F * list F) : Prop :=
    (2 ^ sv <= length (fst e))%nat /\ (2 ^ sv <= length (snd e))%nat /\
    forall s, (s < 2 ^ sv)%nat ->
      nth s (fst e) 0 = cur o v p (S k) (ix o k false (idx * 2 ^ sv + s)) /\
      nth s (snd e) 0 = cur o v p (S k) (ix o k true (idx * 2 ^ sv + s)).

  Lemma idx_lt k sv idx s : (sv <= k)%nat -> (idx < 2 ^ (k - sv))%nat -> (s < 2 ^ sv)%nat -> (idx * 2 ^ sv + s < 2 ^ k)%nat.
  Proof. intros. replace k with (sv + (k - sv))%nat by lia. now apply mix_lt. Qed.

  Lemma low_access_ok n v p k sv idx (tq : mquery F) c m : length p = (n - S k)%nat -> (S k <= n)%nat ->
    rep LowToHigh n v p (S k) m ->
    (match m with Transp _ _ _ _ => query_holds lw c tq p | _ => True end) ->
    (sv <= k)%nat -> (idx < 2 ^ (k - sv))%nat ->
    exists e, low_to_high_evaluations lw junk m sv idx tq = Ok e /\ accessed LowToHigh v p k sv idx e.
  Proof.
    intros Lp Hk HR HQ Hsv Hidx. unfold low_to_high_evaluations.
    assert (G : forall s, length s = (2 ^ (sv + 1 - lw) * 2 ^ lw)%nat ->
      (forall i, (i < 2 ^ S sv)%nat -> nth i s 0 = cur LowToHigh v p (S k) (idx * 2 ^ S sv + i)%nat) ->
      accessed LowToHigh v p k sv idx (deinterleave lw s)).
    { intros s HL HV. destruct (deinterleave_ok s sv HL) as [L1 [L2 N]]. pose proof (sv_len sv lw) as SL.
      split; [lia|]. split; [lia|]. intros i Hi. destruct (N i Hi) as [-> ->]. rewrite !HV by (rewrite pow2_S; lia).
      cbn [ix]. rewrite pow2_S. split; f_equal; lia. }
    destruct m as [q sw suffix slen|evals suffix].
    - destruct HR as [PO [MU [SL [TV _]]]].
      assert (HJ : length (junk (2 ^ (sv + 1 - lw) * 2 ^ lw)) = (2 ^ (sv + 1 - lw) * 2 ^ lw)%nat) by apply junk_length.
      pose proof (proj1 HQ) as QN. replace (sv + 1)%nat with (S sv) in * by lia.
      destruct (Nat.eqb_spec (q_nvars tq) 0) as [Z|NZ].
      + pose proof (subcube_evals_correct F (mp_direct q) (mp_lw q) lw (mp_mle q) (S sv) idx _ (2 ^ (S sv - lw)) (proj1 PO)
                      ltac:(apply PO) HJ) as P.
        rewrite MU, Nat.eqb_refl, (proj2 (Nat.leb_le _ _)), (proj2 (Nat.ltb_lt _ _)) in P; [|replace (n - S sv)%nat with (k - sv)%nat by lia; auto|lia].
        destruct P as [s [E [L V]]]. rewrite E. cbn [rbind]. eexists. split; [reflexivity|]. apply G; [replace (sv + 1)%nat with (S sv) by lia; congruence|].
        intros i Hi. rewrite V by auto. destruct p; [|cbn in QN; lia]. cbn [FoldProofs.cur app length] in *.
        assert (B : (idx * 2 ^ S sv + i < 2 ^ n)%nat).
        { apply idx_lt; auto; [lia|]. replace (n - S sv)%nat with (k - sv)%nat by lia. auto. }
        replace (S k) with n by lia. rewrite mle_on_cube by auto. now apply TV.
      + destruct (subcube_partial_low_correct F (mp_lw q) lw c (mp_mle q) tq p (S sv) idx _ (2 ^ (S sv - lw)) (proj1 PO) HQ HJ)
          as [s [E [L [V _]]]].
        { rewrite MU. split; [lia|]. split; auto. replace (n - length p - S sv)%nat with (k - sv)%nat by lia. auto. }
        rewrite E. cbn [rbind]. eexists. split; [reflexivity|]. apply G; [replace (sv + 1)%nat with (S sv) by lia; congruence|].
        intros i Hi. rewrite V by auto. cbn [FoldProofs.cur]. rewrite MU. replace (n - length p)%nat with (S k) by lia.
        apply mle_ext. intros x Hx. apply TV. rewrite app_length, vertex_length in Hx. now replace n with (length p + S k)%nat by lia.
    - destruct HR as [_ HV]. cbn [rbind]. eexists. split; [reflexivity|]. replace (sv + 1)%nat with (S sv) in * by lia.
      rewrite Nat.shiftl_mul_pow2. destruct (folded_slice_ok evals suffix idx (S sv)) as [L N].
      replace (sv + 1)%nat with (S sv) in G by lia.
      apply G; auto. intros i Hi. rewrite N by auto. symmetry. apply HV. apply idx_lt; auto; lia.
  Qed.

  Lemma high_access_ok n v p k sv idx (tq : mquery F) c m : length p = (n - S k)%nat -> (S k <= n)%nat ->
    rep HighToLow n v p (S k) m ->
    (match m with Transp _ _ _ _ => query_holds lw c tq (rev p) | _ => True end) ->
    (sv <= k)%nat -> (idx < 2 ^ (k - sv))%nat ->
    exists e, high_to_low_evaluations lw junk m sv idx (k - sv) tq = Ok e /\ accessed HighToLow v p k sv idx e.
  Proof.
    intros Lp Hk HR HQ Hsv Hidx. unfold high_to_low_evaluations.
    assert (I1 : Nat.lor idx (Nat.shiftl 1 (k - sv)) = (idx + 2 ^ (k - sv))%nat).
    { rewrite Nat.lor_comm, lor_shl by auto. lia. }
    assert (B1 : (idx + 2 ^ (k - sv) < 2 ^ (S k - sv))%nat) by (replace (S k - sv)%nat with (S (k - sv)) by lia; rewrite pow2_S; lia).
    assert (B0 : (idx < 2 ^ (S k - sv))%nat) by lia.
    assert (SP : (2 ^ (k - sv) * 2 ^ sv = 2 ^ k)%nat) by (rewrite <- Nat.pow_add_r; f_equal; lia).
    pose proof (sv_len sv lw) as SL0.
    assert (G : forall e0 e1, length e0 = (2 ^ (sv - lw) * 2 ^ lw)%nat -> length e1 = (2 ^ (sv - lw) * 2 ^ lw)%nat ->
      (forall s, (s < 2 ^ sv)%nat -> nth s e0 0 = cur HighToLow v p (S k) (idx * 2 ^ sv + s)%nat) ->
      (forall s, (s < 2 ^ sv)%nat -> nth s e1 0 = cur HighToLow v p (S k) ((idx + 2 ^ (k - sv)) * 2 ^ sv + s)%nat) ->
      accessed HighToLow v p k sv idx (e0, e1)).
    { intros e0 e1 L0 L1 V0 V1. split; [cbn [fst]; lia|]. split; [cbn [snd]; lia|]. intros s Hs. cbn [fst snd ix].
      rewrite V0, V1 by auto. split; auto. f_equal. nia. }
    destruct m as [q sw suffix slen|evals suffix].
    - destruct HR as [PO [MU [SL [TV _]]]].
      assert (HJ : length (junk (2 ^ (sv - lw) * 2 ^ lw)) = (2 ^ (sv - lw) * 2 ^ lw)%nat) by apply junk_length.
      pose proof (proj1 HQ) as QN. rewrite rev_length in QN. rewrite I1.
      destruct (Nat.eqb_spec (q_nvars tq) 0) as [Z|NZ].
      + assert (n = S k) by lia.
        assert (P : forall i, (i < 2 ^ (S k - sv))%nat -> exists o, subcube_evals (mp_direct q) lw (mp_mle q) sv i (junk (2 ^ (sv - lw) * 2 ^ lw)) = Ok o /\
          length o = (2 ^ (sv - lw) * 2 ^ lw)%nat /\ forall s, (s < 2 ^ sv)%nat -> nth s o 0 = cur HighToLow v p (S k) (i * 2 ^ sv + s)%nat).
        { intros i Hi.
          pose proof (subcube_evals_correct F (mp_direct q) (mp_lw q) lw (mp_mle q) sv i _ (2 ^ (sv - lw)) (proj1 PO)
                      ltac:(apply PO) HJ) as P.
          rewrite MU, Nat.eqb_refl, (proj2 (Nat.leb_le _ _)), (proj2 (Nat.ltb_lt _ _)) in P; [|now replace n with (S k)|lia].
          destruct P as [o [E [L V]]]. exists o. split; auto. split; [congruence|]. intros s Hs. rewrite V by auto.
          destruct p; [|cbn in QN; lia]. cbn [FoldProofs.cur rev]. rewrite app_nil_r.
          assert (B : (i * 2 ^ sv + s < 2 ^ S k)%nat) by (apply idx_lt; auto; lia).
          rewrite mle_on_cube by auto. apply TV. now replace n with (S k). }
        destruct (P idx B0) as [o0 [E0 [L0 V0]]], (P _ B1) as [o1 [E1 [L1 V1]]]. rewrite E0. cbn [rbind]. rewrite E1. cbn [rbind].
        eexists. split; [reflexivity|]. now apply G.
      + assert (P : forall i, (i < 2 ^ (S k - sv))%nat -> exists o, subcube_partial_high_evals lw (mp_mle q) tq sv i (junk (2 ^ (sv - lw) * 2 ^ lw)) = Ok o /\
          length o = (2 ^ (sv - lw) * 2 ^ lw)%nat /\ forall s, (s < 2 ^ sv)%nat -> nth s o 0 = cur HighToLow v p (S k) (i * 2 ^ sv + s)%nat).
        { intros i Hi.
          destruct (subcube_partial_high_correct F (mp_lw q) lw c (mp_mle q) tq (rev p) sv i _ (2 ^ (sv - lw)) (proj1 PO) (proj1 (proj2 PO)) HQ HJ)
            as [o [E [L [V _]]]].
          { rewrite MU, rev_length. split; [lia|]. split; auto. replace (n - length p - sv)%nat with (S k - sv)%nat by lia. auto. }
          exists o. split; auto. split; [congruence|]. intros s Hs. rewrite V by auto. cbn [FoldProofs.cur]. rewrite MU, rev_length.
          replace (n - length p)%nat with (S k) by lia.
          apply mle_ext. intros x Hx. apply TV. rewrite app_length, vertex_length, rev_length in Hx. now replace n with (S k + length p)%nat by lia. }
        destruct (P idx B0) as [o0 [E0 [L0 V0]]], (P _ B1) as [o1 [E1 [L1 V1]]]. rewrite E0. cbn [rbind]. rewrite E1. cbn [rbind].
        eexists. split; [reflexivity|]. now apply G.
    - destruct HR as [_ HV]. eexists. split; [reflexivity|].
      replace (k - sv + sv)%nat with k by lia.
      assert (I2 : Nat.lor (Nat.shiftl idx sv) (Nat.shiftl 1 k) = ((idx + 2 ^ (k - sv)) * 2 ^ sv)%nat).
      { rewrite Nat.lor_comm, lor_shl; rewrite Nat.shiftl_mul_pow2; [nia|].
        pose proof (idx_lt k sv idx 0 Hsv Hidx (pow2_pos sv)). lia. }
      rewrite I2, Nat.shiftl_mul_pow2.
      destruct (folded_slice_ok evals suffix idx sv) as [L0 N0], (folded_slice_ok evals suffix (idx + 2 ^ (k - sv)) sv) as [L1 N1].
      apply G; auto; intros s Hs; [rewrite N0 by auto|rewrite N1 by auto]; symmetry; apply HV; apply idx_lt; auto; lia.
  Qed.

  Lemma max_used_length counts c used : length (max_used counts c used) = length counts.
  Proof. revert used. induction counts as [|a l IH]; intros [|u used]; cbn; auto. Qed.

  Lemma max_used_mono counts c used j : (nth j counts 0 <= nth j (max_used counts c used) 0)%nat.
  Proof.
    revert used j. induction counts as [|a l IH]; intros [|u used] [|j]; cbn [max_used nth]; auto; try lia. destruct u; lia.
  Qed.

  Lemma max_used_ge counts c used j : (j < length counts)%nat -> nth j used false = true -> (c <= nth j (max_used counts c used) 0)%nat.
  Proof.
    revert used j. induction counts as [|a l IH]; intros [|u used] [|j] Hj; cbn in *; try lia; try discriminate.
    - intros ->. lia.
    - intros Hu. apply IH; auto. lia.
  Qed.

  Lemma counts_ok m (ecs : list (evaluator F * nat)) :
    length (multilinear_counts m ecs) = m /\
    forall e c j, In (e, c) ecs -> (j < m)%nat -> nth j (ev_used e) false = true -> (c <= nth j (multilinear_counts m ecs) 0)%nat.
  Proof.
    unfold multilinear_counts.
    set (st := fun counts (ec : evaluator F * nat) => max_used counts (snd ec) (ev_used (fst ec))).
    assert (M : forall ecs counts, length (fold_left st ecs counts) = length counts /\
                 forall j, (nth j counts 0 <= nth j (fold_left st ecs counts) 0)%nat).
    { clear. induction ecs as [|ec ecs IH]; intros counts; cbn [fold_left]; [split; auto; lia|].
      destruct (IH (st counts ec)) as [L N]. split; [rewrite L; apply max_used_length|].
      intros j. etransitivity; [apply (max_used_mono counts (snd ec) (ev_used (fst ec)))|apply N]. }
    assert (G : forall ecs counts, forall e c j, In (e, c) ecs -> (j < length counts)%nat -> nth j (ev_used e) false = true ->
                 (c <= nth j (fold_left st ecs counts) 0)%nat).
    { induction ecs0 as [|ec ecs0 IH]; intros counts e c j HI Hj HU; [destruct HI|]. cbn [fold_left]. destruct HI as [->|HI].
      - etransitivity; [|apply M]. now apply max_used_ge.
      - apply IH with (e := e); auto. unfold st. now rewrite max_used_length. }
    split; [rewrite (proj1 (M ecs _)); apply repeat_length|].
    intros e c j HI Hj HU. apply (G ecs (repeat 0%nat m) e c j); auto. now rewrite repeat_length.
  Qed.

  Lemma union_range_ok (evs : list (evaluator F)) e : In e evs ->
    (fst (union_range evs) <= ev_start e)%nat /\ (ev_end e <= snd (union_range evs))%nat.
  Proof.
    destruct evs as [|e0 evs]; [intros []|]. cbn [union_range].
    assert (G : forall evs r, let r' := fold_left (fun r e => (Nat.min (fst r) (ev_start e), Nat.max (snd r) (ev_end e))) evs r in
      (fst r' <= fst r /\ snd r <= snd r')%nat /\ forall e : evaluator F, In e evs -> (fst r' <= ev_start e /\ ev_end e <= snd r')%nat).
    { clear. induction evs as [|a evs IH]; intros r; cbn [fold_left]; [split; [lia|intros e []]|].
      destruct (IH (Nat.min (fst r) (ev_start a), Nat.max (snd r) (ev_end a))) as [[A B] C]. cbn [fst snd] in A, B.
      split; [cbv zeta; lia|]. intros e [->|He]; [lia|auto]. }
    intros [->|He]; [destruct (G evs (ev_start e, ev_end e)) as [A _]|destruct (G evs (ev_start e0, ev_end e0)) as [_ A]; now apply A].
    exact A.
  Qed.

  (** common start *)
  Lemma union_start (evs : list (evaluator F)) e st : In e evs -> (forall e, In e evs -> ev_start e = st) -> fst (union_range evs) = st.
  Proof.
    destruct evs as [|e0 evs]; [intros []|]. intros _ H. cbn [union_range].
    assert (G : forall evs r, fst r = st -> (forall e : evaluator F, In e evs -> ev_start e = st) ->
       fst (fold_left (fun r e => (Nat.min (fst r) (ev_start e), Nat.max (snd r) (ev_end e))) evs r) = st).
    { clear. induction evs as [|a evs IH]; intros r Hr H; cbn [fold_left]; auto. apply IH; [|intros; apply H; now right].
      cbn [fst]. rewrite (H a) by (now left). lia. }
    apply G; [apply H; now left|intros; apply H; now right].
  Qed.

  Lemma omap_ok {A B} (f : A -> option B) (g : A -> B) l : (forall a, In a l -> f a = Some (g a)) -> omap f l = Some (map g l).
  Proof. induction l as [|a l IH]; intros H; [reflexivity|]. cbn [omap map]. rewrite H by (now left). rewrite IH by (intros; apply H; now right). reflexivity. Qed.

  (* ---------------------------------------------------------------- *)
  Variable o : order.
  Variable n k : nat.
  Variable vs : list (nat -> F).
  Variable p : list F.
  Hypothesis Lp : length p = (n - S k)%nat.
  Hypothesis Hkn : (S k <= n)%nat.
  Variable points : list F.

  (** value at the point with index [i] of the line through [a] (at 0) and [b] (at 1) *)
  Definition pv (i : nat) (a b : F) : F :=
    match i with
    | O => a
    | S O => b
    | S (S O) => b - a
    | S (S (S t)) => extrapolate_line a b (nth t points 0)
    end.

  (** the values of the multilinears for the vertex [y], at the point with index [i] *)
  Definition col (i y : nat) : list F :=
    map (fun v => pv i (cur o v p (S k) (ix o k false y)) (cur o v p (S k) (ix o k true y))) vs.

  (** An evaluator computes [f inf y column]. *)
  Definition evok (e : evaluator F) (f : bool -> nat -> list F -> F) : Prop :=
    length (ev_used e) = length vs /\ (ev_suffix e <= 2 ^ k)%nat /\
    (forall sv idx inf rows, (sv <= k)%nat -> (lw <= sv)%nat \/ sv = k ->
       (idx < div_ceil (2 ^ k - ev_suffix e) (2 ^ sv))%nat -> length rows = length vs ->
       exists l, ev_process e sv idx inf rows = Ok l /\ (2 ^ sv <= length l)%nat /\
         forall s, (s < 2 ^ sv)%nat -> nth s l 0 = f inf (idx * 2 ^ sv + s)%nat (map (fun r => nth s r 0) rows)) /\
    (forall inf y c c', length c = length vs -> length c' = length vs -> agree_on (ev_used e) c c' -> f inf y c = f inf y c') /\
    (forall i sv, (ev_start e <= i < ev_end e)%nat -> (sv <= k)%nat -> (lw <= sv)%nat \/ sv = k ->
       let done := (div_ceil (2 ^ k - ev_suffix e) (2 ^ sv) * 2 ^ sv)%nat in
       ev_constant e (2 ^ S k - done) (i =? 2)%nat =
         Ok (sumn (2 ^ k - done) (fun j => f (i =? 2)%nat (done + j)%nat (col i (done + j))))).

  Definition count_of (sv : nat) (e : evaluator F) : nat := div_ceil (2 ^ k - ev_suffix e) (2 ^ sv).

  (** contribution of one subcube *)
  Definition part_of (sv idx : nat) (ef : evaluator F * (bool -> nat -> list F -> F)) (i : nat) : F :=
    if (count_of sv (fst ef) <=? idx)%nat then 0
    else sumn (2 ^ sv) (fun s => snd ef (i =? 2)%nat (idx * 2 ^ sv + s)%nat (col i (idx * 2 ^ sv + s))).

  Definition shape (g : evaluator F * (bool -> nat -> list F -> F) -> nat -> F)
    (efs : list (evaluator F * (bool -> nat -> list F -> F))) : list (list F) :=
    map (fun ef => map (g ef) (seq (ev_start (fst ef)) (ev_end (fst ef) - ev_start (fst ef)))) efs.

  Lemma subcube_round_ok (ms : list (smle F)) (tq : mquery F) c efs sv idx :
    Forall2 (fun v m => rep o n v p (S k) m) vs ms ->
    ((exists m, In m ms /\ match m with Transp _ _ _ _ => True | _ => False end) -> query_holds lw c tq (pt o p)) ->
    (forall ef, In ef efs -> evok (fst ef) (snd ef)) ->
    length points = (snd (union_range (map fst efs)) - 3)%nat ->
    (sv <= k)%nat -> (lw <= sv)%nat \/ sv = k -> (idx < 2 ^ (k - sv))%nat ->
    subcube_round lw junk o tq ms (map (fun ef => (fst ef, count_of sv (fst ef))) efs) points (union_range (map fst efs)) sv (k - sv) idx
    = Ok (shape (part_of sv idx) efs).
  Proof.
    intros HM HQ HE HP Hsv Hs Hidx. unfold subcube_round.
    set (ecs := map (fun ef => (fst ef, count_of sv (fst ef))) efs).
    pose proof (forall2_length _ _ _ HM) as LM. rewrite <- LM.
    set (m := length vs) in *. destruct (counts_ok m ecs) as [LC HC].
    set (counts := multilinear_counts m ecs) in *. set (range := union_range (map fst efs)) in *.
    set (acc := fun mc : smle F * nat =>
        if (idx <? snd mc)%nat then
          match o with
          | LowToHigh => low_to_high_evaluations lw junk (fst mc) sv idx tq
          | HighToLow => high_to_low_evaluations lw junk (fst mc) sv idx (k - sv) tq
          end
        else Ok (junk (2 ^ (sv - lw) * 2 ^ lw), junk (2 ^ (sv - lw) * 2 ^ lw))).
    rewrite (map_combine_seq acc ms counts (Folded [] 0) 0%nat) by lia. rewrite <- LM.
    destruct (collect_ex (fun j => acc (nth j ms (Folded [] 0), nth j counts 0%nat))
      (fun j e => (idx < nth j counts 0)%nat -> accessed o (nth j vs (fun _ => 0)) p k sv idx e) (seq 0 m)) as [es [Ees FE]].
    { intros j Hj. apply in_seq in Hj. unfold acc. cbn [fst snd].
      destruct (Nat.ltb_spec idx (nth j counts 0%nat)) as [L|L]; [|eexists; split; [reflexivity|]; lia].
      pose proof (forall2_nth _ _ _ j (fun _ => 0) (Folded [] 0) HM ltac:(fold m; lia)) as RJ.
      assert (QJ : match nth j ms (Folded [] 0) with Transp _ _ _ _ => query_holds lw c tq (pt o p) | _ => True end).
      { destruct (nth j ms (Folded [] 0)) eqn:EM; auto. apply HQ. exists (nth j ms (Folded [] 0)). split; [apply nth_In; lia|]. now rewrite EM. }
      destruct o; cbn [pt] in QJ.
      - destruct (low_access_ok n _ p k sv idx tq c _ Lp Hkn RJ QJ Hsv Hidx) as [e [E A]]. exists e. auto.
      - destruct (high_access_ok n _ p k sv idx tq c _ Lp Hkn RJ QJ Hsv Hidx) as [e [E A]]. exists e. auto. }
    rewrite Ees. cbn [rbind]. pose proof (forall2_length _ _ _ FE) as LE. rewrite seq_length in LE.
    (* the rows *)
    set (rowj := fun i (ec : (list F * list F) * nat) =>
       if (snd ec <=? idx)%nat then fst (fst ec) else match row_at points i (fst ec) with Some r => r | None => [] end).
    rewrite (collect_ok _ (fun i => map (rowj i) (combine es counts))).
    2:{ intros i Hi. apply in_seq in Hi. rewrite (omap_ok _ (rowj i)); [reflexivity|]. intros [e cj] _. unfold rowj. cbn [fst snd].
        destruct (Nat.leb_spec cj idx); auto.
        destruct i as [|[|[|t]]]; cbn [row_at]; auto.
        rewrite (nth_error_nth' points 0) by lia. reflexivity. }
    cbn [rbind]. unfold ecs. rewrite map_map.
    unfold shape. apply collect_ok. intros ef Hef. cbn [fst snd]. apply collect_ok. intros i Hi. apply in_seq in Hi.
    unfold part_of. destruct (Nat.leb_spec (count_of sv (fst ef)) idx) as [L|L]; [reflexivity|].
    destruct (HE ef Hef) as [UL [US [PR [IND _]]]].
    destruct (union_range_ok (map fst efs) (fst ef) ltac:(now apply in_map)) as [R1 R2]. fold range in R1, R2.
    rewrite (nth_map_lt _ (seq (fst range) (snd range - fst range)) (i - fst range) [] 0%nat) by (rewrite seq_length; lia).
    rewrite seq_nth by lia. replace (fst range + (i - fst range))%nat with i by lia.
    destruct (PR sv idx (i =? 2)%nat (map (rowj i) (combine es counts)) Hsv Hs L) as [l [El [Ll Nl]]].
    { rewrite map_length, combine_length. lia. }
    rewrite El. cbn [rbind]. f_equal. rewrite fsum_nth, firstn_length, Nat.min_l by auto. apply sumn_ext. intros s Hs'.
    rewrite nth_firstn_lt, Nl by auto.
    apply IND; [now rewrite !map_length, combine_length, <- LE, LC, Nat.min_id|unfold col; now rewrite map_length|].
    intros j Hu.
    assert (Hj : (j < m)%nat).
    { destruct (Nat.lt_ge_cases j m) as [|B]; auto. rewrite nth_overflow in Hu by lia. discriminate. }
    rewrite map_map. rewrite (map_combine_seq _ es counts ([], []) 0%nat) by lia. rewrite <- LE.
    rewrite nth_map_seq by auto. unfold col. rewrite (nth_map_lt _ vs j 0 (fun _ => 0)) by auto.
    assert (CJ : (idx < nth j counts 0)%nat).
    { eapply Nat.lt_le_trans; [exact L|]. apply (HC (fst ef) (count_of sv (fst ef)) j); auto. unfold ecs.
      apply (in_map (fun ef => (fst ef, count_of sv (fst ef))) efs ef Hef). }
    pose proof (forall2_nth _ _ _ j 0%nat ([], []) FE ltac:(rewrite seq_length; lia)) as AJ. rewrite seq_nth in AJ by auto.
    cbn [Nat.add] in AJ. specialize (AJ CJ). set (e := nth j es ([], [])) in *. destruct AJ as [A1 [A2 A3]].
    destruct (A3 s Hs') as [V0 V1]. rewrite <- V0, <- V1. unfold rowj. cbn [fst snd]. rewrite (proj2 (Nat.leb_gt _ _) CJ).
    assert (CB : forall (h : F * F -> F), nth s (map h (combine (fst e) (snd e))) 0 = h (nth s (fst e) 0, nth s (snd e) 0)).
    { intros h. rewrite (nth_map_lt h _ s 0 (0, 0)) by (rewrite combine_length; lia). f_equal.
      apply combine_nth_lt; lia. }
    destruct i as [|[|[|t]]]; cbn [row_at pv]; auto.
    - rewrite CB. reflexivity.
    - rewrite (nth_error_nth' points 0) by lia. cbn [obind]. rewrite CB. reflexivity.
  Qed.

  Lemma madd_shape g h efs : madd (shape g efs) (shape h efs) = shape (fun ef i => g ef i + h ef i) efs.
  Proof.
    unfold madd, shape. induction efs as [|ef efs IH]; [reflexivity|]. cbn [map combine fst snd]. f_equal; [|exact IH].
    induction (seq (ev_start (fst ef)) (ev_end (fst ef) - ev_start (fst ef))) as [|i l IHl]; [reflexivity|].
    cbn [map combine fst snd]. f_equal. exact IHl.
  Qed.

  Lemma shape_ext g h efs : (forall ef i, In ef efs -> (ev_start (fst ef) <= i < ev_end (fst ef))%nat -> g ef i = h ef i) -> shape g efs = shape h efs.
  Proof.
    intros H. unfold shape. apply map_ext_in. intros ef Hef. apply map_ext_in. intros i Hi. apply in_seq in Hi. apply H; auto; lia.
  Qed.

  Lemma fold_madd {A} (G : A -> _) efs l : forall g0,
    fold_left madd (map (fun x => shape (G x) efs) l) (shape g0 efs) = shape (fun ef i => g0 ef i + fsum (map (fun x => G x ef i) l)) efs.
  Proof.
    induction l as [|x l IH]; intros g0; cbn [map fold_left fsum].
    - apply shape_ext. intros. ring.
    - rewrite madd_shape, IH. apply shape_ext. intros. ring.
  Qed.

  Lemma fsum_perm (l l' : list F) : Permutation l l' -> fsum l = fsum l'.
  Proof. induction 1; cbn [fsum]; [reflexivity| | |]; try congruence. ring. Qed.

  Lemma fsum_concat {A} (g : A -> F) (ls : list (list A)) : fsum (map (fun l => fsum (map g l)) ls) = fsum (map g (concat ls)).
  Proof.
    induction ls as [|l ls IH]; cbn [map concat fsum]; [reflexivity|]. now rewrite map_app, fsum_app, IH.
  Qed.

  Theorem calculate_round_evals_ok parts (ms : list (smle F)) (tq : option (mquery F)) efs st :
    (forall N, Permutation (concat (parts N)) (seq 0 N)) ->
    Forall2 (fun v m => rep o n v p (S k) m) vs ms ->
    ((exists m, In m ms /\ match m with Transp _ _ _ _ => True | _ => False end) -> query_ok F lw o p tq) ->
    (forall ef, In ef efs -> evok (fst ef) (snd ef) /\ ev_start (fst ef) = st) ->
    length points = (snd (union_range (map fst efs)) - 3)%nat ->
    calculate_round_evals lw mb junk parts o (S k) tq ms (map fst efs) points
    = Ok (shape (fun ef i => sumn (2 ^ k) (fun y => snd ef (i =? 2)%nat y (col i y))) efs).
  Proof.
    intros HPa HM HQ HE HP. unfold calculate_round_evals. cbn [Nat.eqb]. replace (S k - 1)%nat with k by lia.
    rewrite HP, Nat.eqb_refl. cbn [negb]. set (q := match tq with Some q => q | None => with_capacity lw 0 end).
    assert (HQ' : exists c, (exists m, In m ms /\ match m with Transp _ _ _ _ => True | _ => False end) -> query_holds lw c q (pt o p)).
    { destruct (existsb (fun m => match m with Transp _ _ _ _ => true | _ => false end) ms) eqn:EX.
      - apply existsb_exists in EX as [m0 [I0 T0]]. destruct HQ as [q' [c [-> H]]].
        + exists m0. split; auto. destruct m0; auto. discriminate.
        + exists c. intros _. exact H.
      - exists 0%nat. intros [m0 [I0 T0]]. exfalso. rewrite <- not_true_iff_false in EX. apply EX. apply existsb_exists.
        exists m0. split; auto. destruct m0; auto. }
    destruct HQ' as [c HQ'].
    set (sv := subcube_vars_for_bits lw mb k (q_nvars q) k).
    destruct (sv_bounds lw mb _ _ _ sv eq_refl) as [B1 B2].
    rewrite map_map. rewrite (collect_ok _ (fun ef => count_of sv (fst ef))).
    2:{ intros ef Hef. unfold evaluator_count. replace (S k - 1)%nat with k by lia.
        destruct (HE ef Hef) as [[_ [US _]] _]. now rewrite (proj2 (Nat.ltb_ge _ _)) by lia. }
    cbn [rbind].
    assert (CE : combine (map fst efs) (map (fun ef => count_of sv (fst ef)) efs) = map (fun ef => (fst ef, count_of sv (fst ef))) efs).
    { clear. induction efs as [|ef efs IH]; [reflexivity|]. cbn [map combine]. now rewrite IH. }
    rewrite CE.
    assert (ZE : map (fun e => repeat 0 (ev_end e - ev_start e)) (map fst efs) = shape (fun _ _ => 0) efs).
    { unfold shape. rewrite map_map. apply map_ext. intros ef. rewrite <- (seq_length (ev_end (fst ef) - ev_start (fst ef)) (ev_start (fst ef))) at 1.
      induction (seq _ _) as [|a l IH]; [reflexivity|]. cbn. now rewrite IH. }
    rewrite ZE.
    rewrite (collect_ok _ (fun part => shape (fun ef i => 0 + fsum (map (fun idx => part_of sv idx ef i) part)) efs)).
    2:{ intros part Hpart. rewrite (collect_ok _ (fun idx => shape (part_of sv idx) efs)).
        - cbn [rbind]. f_equal. apply (fold_madd (fun idx => part_of sv idx)).
        - intros idx Hidx. apply subcube_round_ok with (c := c); auto; [intros; now apply HE|].
          assert (In idx (concat (parts (2 ^ (k - sv))%nat))) by (apply in_concat; eauto).
          apply (Permutation_in _ (HPa _)) in H. apply in_seq in H. lia. }
    cbn [rbind]. rewrite (fold_madd (fun part ef i => 0 + fsum (map (fun idx => part_of sv idx ef i) part))).
    set (tot := fun ef i => 0 + fsum (map (fun part => 0 + fsum (map (fun idx => part_of sv idx ef i) part)) (parts (2 ^ (k - sv))%nat))).
    assert (TOT : forall ef i, tot ef i = sumn (2 ^ (k - sv)) (fun idx => part_of sv idx ef i)).
    { intros ef i. unfold tot.
      rewrite (map_ext _ (fun part => fsum (map (fun idx => part_of sv idx ef i) part))) by (intros; ring).
      rewrite fsum_concat. rewrite (fsum_perm _ _ (Permutation_map _ (HPa _))). unfold sumn. ring. }
    assert (CB : combine (shape tot efs) (map (fun ef => (fst ef, count_of sv (fst ef))) efs) =
                 map (fun ef => (map (tot ef) (seq (ev_start (fst ef)) (ev_end (fst ef) - ev_start (fst ef))), (fst ef, count_of sv (fst ef)))) efs).
    { clear. unfold shape. induction efs as [|ef efs IH]; [reflexivity|]. cbn [map combine]. now rewrite IH. }
    rewrite CB, map_map. unfold shape. apply collect_ok. intros ef Hef. rewrite map_length, seq_length.
    destruct (HE ef Hef) as [[UL [US [_ [_ TAIL]]]] ST].
    rewrite (union_start (map fst efs) (fst ef) st) by
      (try (now apply in_map); intros e He; apply in_map_iff in He as [ef' [<- H']]; now apply HE).
    rewrite <- ST.
    assert (C2 : forall l, combine l (map (tot ef) l) = map (fun i => (i, tot ef i)) l).
    { clear. induction l as [|a l IH]; [reflexivity|]. cbn [map combine]. now rewrite IH. }
    rewrite C2, map_map. apply collect_ok. intros i Hi. apply in_seq in Hi. cbn [fst snd].
    rewrite Nat.shiftl_mul_pow2.
    pose proof (TAIL i sv ltac:(lia) B1 B2) as T. cbv zeta in T. fold (count_of sv (fst ef)) in T. rewrite T. cbn [rbind]. f_equal.
    rewrite TOT. set (cnt := count_of sv (fst ef)).
    assert (CL : (cnt <= 2 ^ (k - sv))%nat).
    { apply div_ceil_le; [apply pow2_pos|]. rewrite <- Nat.pow_add_r. replace (k - sv + sv)%nat with k by lia. lia. }
    assert (SP : (2 ^ (k - sv) * 2 ^ sv = 2 ^ k)%nat) by (rewrite <- Nat.pow_add_r; f_equal; lia).
    replace (2 ^ k)%nat with (cnt * 2 ^ sv + (2 ^ k - cnt * 2 ^ sv))%nat at 2 by nia. rewrite sumn_split. f_equal.
    rewrite sumn_mul. rewrite (sumn_trunc _ cnt); auto.
    - apply sumn_ext. intros idx Hidx. unfold part_of. fold cnt. now rewrite (proj2 (Nat.leb_gt _ _)) by lia.
    - intros idx Hidx. unfold part_of. fold cnt. now rewrite (proj2 (Nat.leb_le _ _)) by lia.
  Qed.
End Proofs.
