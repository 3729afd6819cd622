(** Facts about the twiddle factor tables. *)
Require Import Coq.setoid_ring.Ring Coq.Arith.Arith Coq.Lists.List Coq.Bool.Bool Lia.
From Verif Require Import Base.Fld Base.Lists Base.Sums Base.NatBits Ntt.NttSpec Ntt.SubspaceTheory Ntt.TwiddleModel.
Import ListNotations.

Section Proofs.
  Variable F : field.
  Hypothesis H2 : char2 F.
  Local Open Scope fld_scope.
  Add Ring Fring : (f_ring F).

  (** values of the unnormalised / normalised polynomial of round [i] at the remaining basis *)
  Definition raw_evals (b : nat -> F) (d i : nat) : list F :=
    map (fun k => W b i (b (S i + k)%nat)) (seq 0 (d - S i)).
  Definition norm_evals (b : nat -> F) (d i : nat) : list F :=
    map (fun k => hat b i (b (S i + k)%nat)) (seq 0 (d - S i)).

  Lemma raw_evals_next b d i : (S i < d)%nat ->
    raw_evals b d i = W b i (b (S i)) :: map (fun k => W b i (b (S (S i) + k)%nat)) (seq 0 (d - S (S i))).
  Proof.
    intros L. unfold raw_evals. replace (d - S i)%nat with (S (d - S (S i))) by lia. cbn [seq map].
    rewrite Nat.add_0_r. f_equal. rewrite <- seq_shift, map_map. apply map_ext. intros k.
    now replace (S i + S k)%nat with (S (S i) + k)%nat by lia.
  Qed.

  Lemma subspace_map_W (b : nat -> F) i x : subspace_map (W b i x) (W b i (b i)) = W b (S i) x.
  Proof. unfold subspace_map. cbn [W]. ring. Qed.

  Lemma precompute_loop_spec b d : forall r i, (i + r + 1 = d)%nat ->
    precompute_loop r (W b i (b i)) (raw_evals b d i) =
    Some (map (fun j => (W b j (b j), raw_evals b d j)) (seq i (S r))).
  Proof.
    induction r as [|r IH]; intros i L; [reflexivity|].
    cbn [precompute_loop]. rewrite (raw_evals_next b d i) by lia.
    rewrite subspace_map_W, map_map.
    rewrite (map_ext _ (fun k => W b (S i) (b (S (S i) + k)%nat))) by (intros; apply subspace_map_W).
    change (map (fun k => W b (S i) (b (S (S i) + k)%nat)) (seq 0 (d - S (S i)))) with (raw_evals b d (S i)).
    rewrite IH by lia. cbn [obind]. change (seq i (S (S r))) with (i :: seq (S i) (S r)). cbn [map].
    now rewrite (raw_evals_next b d i) by lia.
  Qed.

  Lemma omap_all {A B} (f : A -> option B) (g : A -> B) l :
    (forall a, In a l -> f a = Some (g a)) -> omap f l = Some (map g l).
  Proof.
    induction l as [|a l IH]; intros H; [reflexivity|]. cbn. rewrite H by now left. cbn [obind].
    rewrite IH by (intros; apply H; now right). reflexivity.
  Qed.

  Lemma omap_none {A B} (f : A -> option B) l a : In a l -> f a = None -> omap f l = None.
  Proof.
    induction l as [|x l IH]; intros Hin E; [destruct Hin|]. destruct Hin as [<-|I]; cbn.
    - now rewrite E.
    - destruct (f x); cbn [obind]; auto. now rewrite (IH I E).
  Qed.

  Lemma tail_raw (b0 : F) rest : b0 = 1 ->
    rest = raw_evals (bs (b0 :: rest)) (length (b0 :: rest)) 0 /\
    1 = W (bs (b0 :: rest)) 0 (bs (b0 :: rest) 0).
  Proof.
    intros E. split; [|now subst]. apply (list_eq_nth rest _ 0).
    - unfold raw_evals. rewrite map_length, seq_length. cbn. lia.
    - intros i Hi. unfold raw_evals. rewrite nth_map_seq by (cbn; lia). reflexivity.
  Qed.

  Lemma precompute_unfold (b0 : F) rest : b0 = 1 ->
    precompute_loop (length rest) 1 rest =
    Some (map (fun j => (W (bs (b0 :: rest)) j (bs (b0 :: rest) j),
                         raw_evals (bs (b0 :: rest)) (length (b0 :: rest)) j))
              (seq 0 (length (b0 :: rest)))).
  Proof.
    intros E. destruct (tail_raw b0 rest E) as [E1 E2].
    change (length (b0 :: rest)) with (S (length rest)). rewrite E1 at 2. rewrite E2 at 1.
    apply precompute_loop_spec. cbn. lia.
  Qed.

  Lemma precompute_spec (basis : list F) : lin_indep basis -> (0 < length basis)%nat -> nth 0 basis 0 = 1 ->
    precompute_subspace_evals basis =
    Ok (map (fun j => norm_evals (bs basis) (length basis) j) (seq 0 (length basis))).
  Proof.
    intros I L E. destruct basis as [|b0 rest]; [cbn in L; lia|]. cbn [nth] in E.
    unfold precompute_subspace_evals. rewrite (proj2 (f_eqb F b0 1)) by auto.
    rewrite (precompute_unfold b0 rest E). cbn [obind].
    set (basis := b0 :: rest) in *.
    rewrite (omap_all normalize (fun p => map (fun e => e * finv (fst p)) (snd p))).
    - cbn [of_opt]. f_equal. rewrite map_map. cbn [fst snd]. apply map_ext. intros j. unfold raw_evals, norm_evals.
      now rewrite map_map.
    - intros p Hp. apply in_map_iff in Hp. destruct Hp as [j [<- Hj]]. apply in_seq in Hj.
      unfold normalize. cbn [fst snd]. rewrite (proj2 (feqb_false F _ _)); [reflexivity|].
      apply (W_norm F H2 (bs basis) (length basis)); [apply lin_indep_iff, I|lia].
  Qed.

  (** A dependent basis is caught by the normalisation. *)
  Lemma not_indep_norm (b : nat -> F) n : ~ indep b n -> exists i, (i < n)%nat /\ W b i (b i) = 0.
  Proof.
    induction n as [|n IH]; intros N.
    - exfalso. apply N. intros m Hm _. cbn in Hm. lia.
    - destruct (feq_dec F (W b n (b n)) 0) as [E|E]; [exists n; auto|].
      destruct IH as [i [L Z]]; [|exists i; split; auto; lia]. intros I. apply N. intros m Hm Z.
      destruct (Nat.testbit m n) eqn:B.
      + exfalso. apply E. apply (W_root F H2). exists (m mod 2 ^ n). split; [apply mod_lt|].
        rewrite bsum_S, B in Z.
        rewrite (bsum_bits F b n (m mod 2 ^ n) m) by (intros; now apply Nat.mod_pow2_bits_low).
        apply (proj1 (char2_add_eq0 F H2 _ _)) in Z. symmetry. exact Z.
      + rewrite bsum_S, B in Z. assert (Lm : (m < 2 ^ n)%nat).
        { pose proof (split_bit m n) as S. rewrite B, (Nat.div_small m (2 ^ Datatypes.S n)) in S by auto.
          rewrite S. cbn. apply mod_lt. }
        apply I; auto. rewrite <- Z. ring.
  Qed.

  Lemma precompute_dependent (basis : list F) : ~ lin_indep basis -> nth 0 basis 0 = 1 ->
    precompute_subspace_evals basis = Panic.
  Proof.
    intros N E. destruct basis as [|b0 rest]; [cbn in E; exfalso; apply (f_10 F); auto|]. cbn [nth] in E.
    unfold precompute_subspace_evals. rewrite (proj2 (f_eqb F b0 1)) by auto.
    rewrite (precompute_unfold b0 rest E). cbn [obind]. set (basis := b0 :: rest) in *.
    destruct (not_indep_norm (bs basis) (length basis)) as [i [L Z]]; [intros X; apply N, lin_indep_iff, X|].
    rewrite (omap_none normalize _ (W (bs basis) i (bs basis i), raw_evals (bs basis) (length basis) i)); [reflexivity| |].
    - apply in_map_iff. exists i. split; auto. apply in_seq. lia.
    - unfold normalize. now rewrite Z, feqb_refl.
  Qed.

  (** ** Access *)
  Lemma filter_sum (f : nat -> F) (p : nat -> bool) n :
    fsum (map f (filter p (seq 0 n))) = sumn n (fun i => if p i then f i else 0).
  Proof.
    unfold sumn. induction (seq 0 n) as [|a l IH]; [reflexivity|]. cbn [filter map].
    destruct (p a); cbn [map fsum]; rewrite IH; ring.
  Qed.

  Lemma subset_sum_spec (s : list F) n idx : (n <= length s)%nat ->
    subset_sum s n idx = Some (bsum (bs s) n idx).
  Proof.
    intros L. unfold subset_sum. rewrite (omap_all _ (fun b => nth b s 0)).
    - cbn [obind]. f_equal. unfold bsum, bs. apply filter_sum.
    - intros a Ha. apply filter_In in Ha. destruct Ha as [Ha _]. apply in_seq in Ha.
      apply nth_error_nth_eq. lia.
  Qed.

  Lemma expand_spec (s : list F) : length (expand_evals s) = (2 ^ length s)%nat /\
    forall k, (k < 2 ^ length s)%nat -> nth k (expand_evals s) 0 = bsum (bs s) (length s) k.
  Proof.
    unfold expand_evals. induction s as [|e s [IL IH]] using rev_ind.
    - split; [reflexivity|]. intros k Hk. cbn in Hk. replace k with 0%nat by lia. reflexivity.
    - rewrite fold_left_app. cbn [fold_left]. set (ex := fold_left _ s [0]) in *.
      rewrite app_length, map_length, IL. rewrite app_length. cbn [length]. rewrite Nat.add_1_r, pow2_S.
      split; [reflexivity|]. intros k Hk. rewrite bsum_S.
      assert (BE : bs (s ++ [e]) (length s) = e) by (unfold bs; rewrite app_nth2, Nat.sub_diag by lia; reflexivity).
      rewrite BE.
      assert (X : forall m, bsum (bs (s ++ [e])) (length s) m = bsum (bs s) (length s) m).
      { intros m. apply bsum_ext. intros i Hi. unfold bs. now apply app_nth1. }
      rewrite X. destruct (Nat.lt_ge_cases k (2 ^ length s)) as [Lk|Lk].
      + rewrite app_nth1 by lia. rewrite IH by auto. rewrite (bit_above k (length s)) by auto. ring.
      + rewrite app_nth2, IL by lia. rewrite (nth_map_lt _ _ _ _ 0) by lia. rewrite IH by lia.
        replace k with (1 * 2 ^ length s + (k - 2 ^ length s))%nat at 2 3 by lia.
        rewrite mix_bit_hi, Nat.sub_diag by lia. cbn [Nat.testbit Nat.odd Nat.even negb].
        rewrite (bsum_bits F (bs s) (length s) (1 * 2 ^ length s + (k - 2 ^ length s)) (k - 2 ^ length s)); [reflexivity|].
        intros i Hi. apply mix_bit_lo; lia.
  Qed.

  (** A well-formed twiddle table: an affine function of the index bits. *)
  Definition tw_repr (t : twiddle F) (n : nat) (off : F) (b : nat -> F) : Prop :=
    tw_log_n t = n /\
    match t with
    | Otf _ o s => o = off /\ length s = n /\ forall i, (i < n)%nat -> nth i s 0 = b i
    | Pre _ s => length s = (2 ^ n)%nat /\ forall k, (k < 2 ^ n)%nat -> nth k s 0 = off + bsum b n k
    end.

  Lemma tw_get_spec t n off b k : tw_repr t n off b -> (k < 2 ^ n)%nat -> tw_get t k = Some (off + bsum b n k).
  Proof.
    intros [EN R] L. destruct t as [m o s|m s]; cbn in *; subst m.
    - destruct R as [-> [LS R]]. rewrite subset_sum_spec by lia. cbn [obind]. do 2 f_equal. now apply bsum_ext.
    - destruct R as [LS R]. rewrite (nth_error_nth_eq s k 0) by lia. f_equal. now apply R.
  Qed.

  Lemma tw_get_pair_spec t n off b w k : tw_repr t n off b -> (w < n)%nat -> (k < 2 ^ w)%nat ->
    tw_get_pair t w k = Some (off + bsum b n k, off + bsum b n (2 ^ w + k)).
  Proof.
    intros [EN R] L Lk. pose proof (pow2_lt w n L) as P. pose proof (pow2_le (S w) n ltac:(lia)) as P'.
    rewrite pow2_S in P'.
    assert (B1 : bsum b n k = bsum b w k).
    { unfold bsum. apply sumn_trunc; [lia|]. intros i Hi. now rewrite (bit_above k w) by (auto; lia). }
    assert (B2 : bsum b n (2 ^ w + k) = bsum b w k + b w).
    { replace n with (w + (n - w))%nat by lia. replace (2 ^ w + k)%nat with (1 * 2 ^ w + k)%nat by lia.
      rewrite bsum_split by auto. f_equal. unfold bsum. rewrite (sumn_single F (n - w) 0); [now rewrite Nat.add_0_r|lia|].
      intros i Hi Hn. destruct i; [lia|]. cbn. now rewrite Nat.bits_0. }
    destruct t as [m o s|m s]; cbn in *; subst m.
    - destruct R as [-> [LS R]]. rewrite subset_sum_spec by lia. cbn [obind].
      rewrite (nth_error_nth_eq s w 0) by lia. cbn [obind]. rewrite B1, B2, R by auto.
      rewrite (bsum_ext F (bs s) b) by (intros; apply R; lia). do 2 f_equal. ring.
    - destruct R as [LS R]. rewrite (nth_error_nth_eq s k 0) by lia. cbn [obind].
      rewrite shl_mul, lor_shiftl by auto. rewrite Nat.mul_1_l.
      rewrite (nth_error_nth_eq s _ 0) by lia. cbn [obind]. now rewrite !R by lia.
  Qed.

  Lemma tw_coset_spec t n off b cb c : tw_repr t n off b -> (cb <= n)%nat -> (c < 2 ^ cb)%nat ->
    exists t', tw_coset t cb c = Some t' /\
      tw_repr t' (n - cb) (off + bsum (fun i => b (n - cb + i)%nat) cb c) b.
  Proof.
    intros [EN R] L Lc. destruct t as [m o s|m s]; cbn [tw_log_n] in EN; cbn [tw_coset]; subst m;
      rewrite (proj2 (Nat.ltb_ge n cb)) by auto; cbv zeta.
    - destruct R as [-> [LS R]]. unfold slice.
      rewrite (proj2 (Nat.leb_le (n - cb) (length s))), Nat.leb_refl by lia. cbn [andb obind].
      rewrite firstn_all2 by (rewrite skipn_length; lia).
      rewrite subset_sum_spec by (rewrite skipn_length; lia). cbn [obind].
      rewrite (proj2 (Nat.leb_le 0 (n - cb))) by lia. cbn [andb obind skipn].
      eexists. split; [reflexivity|]. split; [reflexivity|].
      split; [|split].
      + f_equal. apply bsum_ext. intros i Hi. unfold bs. rewrite nth_skipn'. apply R. lia.
      + rewrite firstn_length. lia.
      + intros i Hi. rewrite nth_firstn_lt by lia. apply R. lia.
    - destruct R as [LS R]. unfold slice. rewrite !shl_mul.
      assert (P : ((c + 1) * 2 ^ (n - cb) <= 2 ^ n)%nat).
      { replace n with ((n - cb) + cb)%nat at 2 by lia. rewrite Nat.pow_add_r. nia. }
      rewrite (proj2 (Nat.leb_le _ _)) by nia. rewrite (proj2 (Nat.leb_le _ _)) by lia. cbn [andb obind].
      eexists. split; [reflexivity|]. split; [reflexivity|]. split.
      + rewrite firstn_length, skipn_length. nia.
      + intros k Hk. rewrite nth_firstn_lt by nia. rewrite nth_skipn', R by nia.
        pose proof (bsum_split F b (n - cb) cb k c Hk) as X. replace (n - cb + cb)%nat with n in X by lia.
        rewrite X. ring.
  Qed.

  Lemma expand_repr b d i :
    tw_repr (Pre (d - S i) (expand_evals (norm_evals b d i))) (d - S i) 0
            (fun k => hat b i (b (S i + k)%nat)).
  Proof.
    assert (LN : length (norm_evals b d i) = (d - S i)%nat)
      by (unfold norm_evals; now rewrite map_length, seq_length).
    destruct (expand_spec (norm_evals b d i)) as [L E]. rewrite LN in L, E.
    split; [reflexivity|]. split; [exact L|].
    intros k Hk. rewrite E by auto.
    rewrite (bsum_ext F (bs (norm_evals b d i)) (fun k => hat b i (b (S i + k)%nat))); [ring|].
    intros j Hj. unfold bs, norm_evals. now rewrite nth_map_seq.
  Qed.

  Lemma otf_repr b d i :
    tw_repr (Otf (d - S i) 0 (norm_evals b d i)) (d - S i) 0 (fun k => hat b i (b (S i + k)%nat)).
  Proof.
    split; [reflexivity|]. split; [reflexivity|]. unfold norm_evals. rewrite map_length, seq_length.
    split; [reflexivity|]. intros k Hk. now rewrite nth_map_seq.
  Qed.

  Lemma combine_seq_map {A B} (f : nat -> A) (g : nat * A -> B) n :
    map g (combine (seq 0 n) (map f (seq 0 n))) = map (fun i => g (i, f i)) (seq 0 n).
  Proof. generalize 0%nat. induction n; intros s; cbn; f_equal; auto. Qed.

  (** All the tables of a domain. *)
  Definition tws_repr (ts : list (twiddle F)) (b : nat -> F) (d : nat) : Prop :=
    length ts = d /\ forall i, (i < d)%nat -> exists t, nth_error ts i = Some t /\
      tw_repr t (d - S i) 0 (fun k => hat b i (b (S i + k)%nat)).

  Lemma generate_repr (basis : list F) : lin_indep basis -> (0 < length basis)%nat -> nth 0 basis 0 = 1 ->
    exists ts tp, otf_generate basis = Ok ts /\ pre_generate basis = Ok tp /\
      tp = expand_subspace_evals ts /\
      tws_repr ts (bs basis) (length basis) /\ tws_repr tp (bs basis) (length basis).
  Proof.
    intros I L E. unfold pre_generate, otf_generate. rewrite precompute_spec by auto. cbn [rbind].
    rewrite map_length, seq_length. rewrite (combine_seq_map _ (fun '(i, s) => Otf (length basis - 1 - i) 0 s)).
    eexists _, _. split; [reflexivity|]. split; [reflexivity|]. split; [reflexivity|]. split.
    - split; [now rewrite map_length, seq_length|]. intros i Hi. eexists. split.
      + rewrite nth_error_map, nth_error_seq. rewrite (proj2 (Nat.ltb_lt i (length basis))) by auto. reflexivity.
      + cbn [Nat.add]. replace (length basis - 1 - i)%nat with (length basis - S i)%nat by lia. apply otf_repr.
    - unfold expand_subspace_evals. rewrite !map_length, seq_length.
      rewrite (combine_seq_map _ (fun '(i, t) => Pre (length basis - 1 - i) (expand_evals (tw_s_evals t)))).
      split; [now rewrite map_length, seq_length|]. intros i Hi. eexists. split.
      + rewrite nth_error_map, nth_error_seq. rewrite (proj2 (Nat.ltb_lt i (length basis))) by auto. reflexivity.
      + cbn [Nat.add tw_s_evals]. replace (length basis - 1 - i)%nat with (length basis - S i)%nat by lia. apply expand_repr.
  Qed.
End Proofs.

Arguments raw_evals {_} _ _ _.
Arguments norm_evals {_} _ _ _.
Arguments tw_repr {_} _ _ _ _.
Arguments tws_repr {_} _ _ _.
