(** C25: twiddle factors. *)
Require Import Coq.NArith.NArith Coq.setoid_ring.Ring Coq.Arith.Arith Coq.Lists.List Coq.Bool.Bool Lia.
From Verif Require Import Base.Fld Base.Lists Base.Sums Base.NatBits Field.Examples Ntt.NttSpec Ntt.SubspaceTheory
  Ntt.TwiddleModel Ntt.TwiddleProofs.
Import ListNotations.
Local Close Scope N_scope.
Local Open Scope nat_scope.

Section Props.
  Variable F : field.
  Hypothesis H2 : char2 F.
  Local Open Scope fld_scope.
  Add Ring Fring : (f_ring F).

  Variable basis : list F.
  Hypothesis BI : lin_indep basis.
  Hypothesis B1 : nth 0 basis 0 = 1.

  (** The twiddle accesses of round [i] that a caller can obtain: an entry of a generated table, or
      a coset of one that is already obtained.  [n] is the number of free index bits and [c] the
      value of the fixed upper ones. *)
  Inductive reachable (i : nat) : twiddle F -> nat -> nat -> Prop :=
  | reach_otf ts t : otf_generate basis = Ok ts -> nth_error ts i = Some t ->
      reachable i t (length basis - 1 - i) 0
  | reach_pre ts t : pre_generate basis = Ok ts -> nth_error ts i = Some t ->
      reachable i t (length basis - 1 - i) 0
  | reach_coset t n c cb c' t' : reachable i t n c -> (cb <= n)%nat -> (c' < 2 ^ cb)%nat ->
      tw_coset t cb c' = Some t' -> reachable i t' (n - cb) (c * 2 ^ cb + c').

  (** The value the documentation promises: the normalised vanishing polynomial of the first [i]
      basis elements, at the combination of the basis elements after the [i]-th given by the
      index bits. *)
  Definition twiddle_value (i k : nat) : F := norm_vanishing basis i (elem (skipn (S i) basis) k).

  Lemma bsum_hat (b c : nat -> F) i n k : bsum (fun j => hat b i (c j)) n k = hat b i (bsum c n k).
  Proof.
    induction n as [|n IH]; [symmetry; apply hat_0; auto|]. rewrite !bsum_S, hat_add, IH by auto. f_equal.
    destruct (Nat.testbit k n); auto. symmetry. now apply hat_0.
  Qed.

  Lemma twiddle_value_bsum i k : (i < length basis)%nat -> twiddle_value i k =
    bsum (fun j => hat (bs basis) i (bs basis (S i + j))) (length basis - S i) k.
  Proof.
    intros L. unfold twiddle_value. rewrite norm_vanishing_hat by auto. rewrite bsum_hat. f_equal.
    rewrite elem_bsum, skipn_length. apply bsum_ext. intros j Hj. unfold bs. now rewrite nth_skipn'.
  Qed.

  Lemma basis_nonempty : (0 < length basis)%nat.
  Proof. destruct basis; [cbn in B1; exfalso; apply (f_10 F); auto|cbn; lia]. Qed.

  Lemma reachable_repr i t n c : reachable i t n c -> (i < length basis)%nat /\
    exists e, (length basis - S i = n + e)%nat /\ (c < 2 ^ e)%nat /\
      tw_repr t n (bsum (fun j => hat (bs basis) i (bs basis (S i + (n + j)))) e c)
              (fun j => hat (bs basis) i (bs basis (S i + j))).
  Proof.
    destruct (generate_repr F H2 basis BI basis_nonempty B1) as [ts0 [tp0 [E1 [E2 [_ [[L1 R1] [L2 R2]]]]]]].
    induction 1 as [ts t E N|ts t E N|t n c cb c' t' HR IH Lcb Lc' EC].
    - rewrite E1 in E. inversion E; subst ts0. clear E. pose proof (nth_error_lt _ _ _ N) as L. rewrite L1 in L.
      split; auto. exists 0%nat. split; [lia|]. split; [cbn; lia|]. destruct (R1 i L) as [t' [N' R]].
      rewrite N in N'. inversion N'; subst t'. replace (length basis - 1 - i)%nat with (length basis - S i)%nat by lia.
      exact R.
    - rewrite E2 in E. inversion E; subst tp0. clear E. pose proof (nth_error_lt _ _ _ N) as L. rewrite L2 in L.
      split; auto. exists 0%nat. split; [lia|]. split; [cbn; lia|]. destruct (R2 i L) as [t' [N' R]].
      rewrite N in N'. inversion N'; subst t'. replace (length basis - 1 - i)%nat with (length basis - S i)%nat by lia.
      exact R.
    - destruct IH as [L [e [Le [Lc R]]]]. split; auto. exists (cb + e)%nat. split; [lia|]. split; [now apply mix_lt|].
      destruct (tw_coset_spec F t n _ _ cb c' R Lcb Lc') as [t2 [EC' R']]. rewrite EC in EC'. inversion EC'; subst t2.
      rewrite bsum_split by auto.
      replace (bsum (fun j => hat (bs basis) i (bs basis (S i + (n - cb + j)))) cb c' +
               bsum (fun j => hat (bs basis) i (bs basis (S i + (n - cb + (cb + j))))) e c)
        with (bsum (fun j => hat (bs basis) i (bs basis (S i + (n + j)))) e c +
              bsum (fun j => hat (bs basis) i (bs basis (S i + (n - cb + j)))) cb c'); [exact R'|].
      rewrite (bsum_ext F (fun j => hat (bs basis) i (bs basis (S i + (n - cb + (cb + j)))))
                 (fun j => hat (bs basis) i (bs basis (S i + (n + j))))); [ring|].
      intros j Hj. do 3 f_equal. lia.
  Qed.

  (** Both kinds of table exist for every linearly independent basis starting with 1, with one
      access per round, and both return the documented value at every index; a coset is a shift of
      the index. *)
  Theorem twiddle_correct i t n c : reachable i t n c ->
    tw_log_n t = n /\
    (forall k, (k < 2 ^ n)%nat -> tw_get t k = Some (twiddle_value i (c * 2 ^ n + k))) /\
    (forall w k, (w < n)%nat -> (k < 2 ^ w)%nat ->
       tw_get_pair t w k = Some (twiddle_value i (c * 2 ^ n + k), twiddle_value i (c * 2 ^ n + (2 ^ w + k)))) /\
    (forall cb c', (cb <= n)%nat -> (c' < 2 ^ cb)%nat -> exists t', tw_coset t cb c' = Some t').
  Proof.
    intros R. destruct (reachable_repr i t n c R) as [L [e [Le [Lc RR]]]].
    assert (V : forall k, (k < 2 ^ n)%nat -> twiddle_value i (c * 2 ^ n + k) =
      bsum (fun j => hat (bs basis) i (bs basis (S i + (n + j)))) e c +
      bsum (fun j => hat (bs basis) i (bs basis (S i + j))) n k).
    { intros k Hk. rewrite twiddle_value_bsum by auto. rewrite Le, bsum_split by auto. ring. }
    split; [apply RR|]. split; [|split].
    - intros k Hk. rewrite (tw_get_spec F t n _ _ k RR Hk). now rewrite V.
    - intros w k Hw Hk. rewrite (tw_get_pair_spec F t n _ _ w k RR Hw Hk).
      pose proof (pow2_le (S w) n ltac:(lia)) as P. rewrite pow2_S in P. now rewrite !V by lia.
    - intros cb c' Hcb Hc'. destruct (tw_coset_spec F t n _ _ cb c' RR Hcb Hc') as [t' [E _]]. eauto.
  Qed.

  Theorem twiddle_tables_exist : exists ts tp, otf_generate basis = Ok ts /\ pre_generate basis = Ok tp /\
    length ts = length basis /\ length tp = length basis /\ tp = expand_subspace_evals ts.
  Proof.
    destruct (generate_repr F H2 basis BI basis_nonempty B1) as [ts [tp [E1 [E2 [E3 [[L1 _] [L2 _]]]]]]].
    exists ts, tp. auto.
  Qed.

  (** The affine subspace reported by an access contains exactly its twiddle values: the shift plus
      the element at the doubled index (the first basis element is 1). *)
  Theorem twiddle_affine_subspace i t n c : reachable i t n c ->
    exists b sh, tw_affine_subspace t = Some (b, sh) /\ length b = S n /\ nth 0 b 0 = 1 /\
      sh = twiddle_value i (c * 2 ^ n) /\
      forall k, (k < 2 ^ n)%nat -> tw_get t k = Some (sh + elem b (2 * k)).
  Proof.
    intros R. destruct (reachable_repr i t n c R) as [L [e [Le [Lc RR]]]].
    destruct (twiddle_correct i t n c R) as [_ [G _]].
    set (h := fun j => hat (bs basis) i (bs basis (S i + j))) in *.
    assert (EL : forall (l : list F) k, length l = n -> (forall j, (j < n)%nat -> nth j l 0 = h j) ->
       elem (1 :: l) (2 * k) = bsum h n k).
    { intros l k LL HL. unfold elem. cbn [length]. rewrite LL. replace (S n) with (1 + n)%nat by lia.
      rewrite sumn_split, sumn_1, Nat.testbit_even_0.
      rewrite (sumn_ext F n _ (fun b => if Nat.testbit k b then h b else 0)); [unfold bsum; ring|].
      intros j Hj. cbn [Nat.add nth]. rewrite Nat.testbit_even_succ by lia. now rewrite HL by auto. }
    pose proof (pow2_pos n) as P0.
    assert (SH : twiddle_value i (c * 2 ^ n) = bsum (fun j => hat (bs basis) i (bs basis (S i + (n + j)))) e c).
    { rewrite twiddle_value_bsum by auto. rewrite <- (Nat.add_0_r (c * 2 ^ n)), Le, bsum_split by auto.
      rewrite bsum_0. ring. }
    destruct RR as [EN RR]. destruct t as [m o s|m s]; cbn [tw_log_n] in EN; subst m.
    - destruct RR as [-> [LS RS]]. exists (1 :: s), (twiddle_value i (c * 2 ^ n)).
      cbn [tw_affine_subspace]. rewrite SH. split; [reflexivity|]. split; [cbn; lia|]. split; [reflexivity|].
      split; [reflexivity|]. intros k Hk. rewrite (EL s k) by auto.
      cbn [tw_get]. rewrite subset_sum_spec by lia. cbn [obind]. do 2 f_equal. apply bsum_ext. exact RS.
    - destruct RR as [LS RS]. cbn [tw_affine_subspace].
      assert (S0 : nth_error s 0 = Some (twiddle_value i (c * 2 ^ n))).
      { rewrite (nth_error_nth_eq s 0 0) by lia. rewrite RS by auto. rewrite bsum_0, <- SH. f_equal. ring. }
      rewrite S0. cbn [obind].
      rewrite (omap_all _ h).
      + cbn [obind]. eexists _, _. split; [reflexivity|]. split; [cbn; now rewrite map_length, seq_length|].
        split; [reflexivity|]. split; [reflexivity|]. intros k Hk.
        rewrite EL; [|now rewrite map_length, seq_length|intros j Hj; now rewrite nth_map_seq].
        cbn [tw_get]. rewrite (nth_error_nth_eq s k 0) by lia. rewrite RS by auto. now rewrite SH.
      + intros j Hj. apply in_seq in Hj. rewrite shl_mul, Nat.mul_1_l. pose proof (pow2_lt j n ltac:(lia)) as Pj.
        rewrite (nth_error_nth_eq s _ 0) by lia. cbn [obind]. rewrite RS by auto. rewrite SH. f_equal.
        replace (bsum h n (2 ^ j)) with (h j); [ring|].
        unfold bsum. rewrite (sumn_single F n j).
        * now rewrite Nat.pow2_bits_true.
        * lia.
        * intros q _ Hq. now rewrite Nat.pow2_bits_false by auto.
  Qed.
End Props.

(** Which bases are rejected: an empty one or one not starting with 1 is an error, a linearly
    dependent one panics. *)
Theorem twiddle_generate_rejects (F : field) (H2 : char2 F) (basis : list F) :
  (basis = [] \/ nth 0 basis f0 <> f1 -> otf_generate basis = Err /\ pre_generate basis = Err) /\
  (nth 0 basis f0 = f1 -> ~ lin_indep basis -> otf_generate basis = Panic /\ pre_generate basis = Panic).
Proof.
  unfold pre_generate, otf_generate. split.
  - intros H. assert (E : precompute_subspace_evals basis = Err).
    { destruct basis as [|b r]; [reflexivity|]. destruct H as [H|H]; [discriminate|]. cbn in H.
      cbn [precompute_subspace_evals]. now rewrite (proj2 (feqb_false F _ _) H). }
    rewrite E. auto.
  - intros H N. rewrite (precompute_dependent F H2 basis N H). auto.
Qed.

(** Domain spanned by 1, 6, 8 in the 16-element field. *)
Example twiddle_ex :
  (match otf_generate (els [1; 6; 8]%N) with
   | Ok ts => map (fun t => (tw_log_n t, map (fun k => option_map bits (tw_get t k)) (seq 0 (2 ^ tw_log_n t)))) ts
   | _ => [] end) =
    [(2, [Some 0; Some 6; Some 8; Some 14]%N); (1, [Some 0; Some 7]%N); (0, [Some 0]%N)] /\
  (match pre_generate (els [1; 6; 8]%N) with
   | Ok ts => map (fun t => (tw_log_n t, map (fun k => option_map bits (tw_get t k)) (seq 0 (2 ^ tw_log_n t)))) ts
   | _ => [] end) =
    [(2, [Some 0; Some 6; Some 8; Some 14]%N); (1, [Some 0; Some 7]%N); (0, [Some 0]%N)] /\
  bits (twiddle_value X16 (els [1; 6; 8]%N) 1 1) = 7%N.
Proof. split; [|split]; vm_compute; reflexivity. Qed.
