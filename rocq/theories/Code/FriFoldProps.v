(** C30: FRI folding commutes with Reed–Solomon encoding. *)
Require Import Coq.NArith.NArith Coq.setoid_ring.Ring Coq.Arith.Arith Coq.Lists.List Coq.Bool.Bool Lia.
From Verif Require Import Base.Fld Base.Lists Base.Sums Base.Poly Base.NatBits Field.Examples
  Math.MleSpec Math.UnivariateModel Math.MleModel Math.MleProofs Math.TensorProps
  Ntt.NttSpec Ntt.SubspaceTheory Ntt.TwiddleModel Ntt.NttModel Ntt.NttProofs Ntt.NttCompose Ntt.NttProps
  Code.RsModel Code.RsProps Code.FriFoldModel.
Import ListNotations.
Local Close Scope N_scope.
Local Open Scope nat_scope.

Section Props.
  Variable F : field.
  Hypothesis H2 : char2 F.
  Local Open Scope fld_scope.
  Add Ring Fring : (f_ring F).
  Variable basis : list F.
  Hypothesis BI : lin_indep basis.
  Hypothesis B1 : nth 0 basis 0 = 1.
  Variable ts : list (twiddle F).
  Hypothesis HT : tables F basis ts.
  Let d := length basis.

  Lemma db_length n : length (domain_basis basis n) = n.
  Proof. unfold domain_basis. now rewrite map_length, seq_length. Qed.

  Lemma db_bs n k : (k < n <= d)%nat -> bs (domain_basis basis n) k = gam F basis n k.
  Proof.
    intros Hk. unfold bs, domain_basis. rewrite nth_map_seq by lia.
    rewrite norm_vanishing_hat by (auto; unfold d in *; lia). reflexivity.
  Qed.

  Lemma db_elem n m : (n <= d)%nat -> elem (domain_basis basis n) m = bsum (gam F basis n) n m.
  Proof. intros L. rewrite elem_bsum, db_length. apply bsum_ext. intros i Hi. apply db_bs. lia. Qed.

  Lemma db_hat n i x : (i < n <= d)%nat -> norm_vanishing (domain_basis basis n) i x = hat (gam F basis n) i x.
  Proof.
    intros L. rewrite norm_vanishing_hat by (auto; rewrite db_length; lia). apply hat_ext. intros j Hj. apply db_bs. lia.
  Qed.

  Lemma gam_first n : (1 <= n <= d)%nat -> gam F basis n 0 = 1.
  Proof. intros L. unfold gam. apply (shifted_first F H2 (bs basis) _ d); auto. unfold d in *. lia. Qed.

  Lemma gam_shift n k : (2 <= n <= d)%nat -> shifted (gam F basis n) 1 k = gam F basis (n - 1) k.
  Proof.
    intros L. unfold gam. fold d. rewrite (shifted_shifted F H2 (bs basis) (d - n) 1 n) by (try lia; replace (d - n + n)%nat with d by lia; exact BI).
    f_equal. lia.
  Qed.

  Lemma bsum_low1 (g : nat -> F) n j b : (1 <= n)%nat -> (b < 2)%nat ->
    bsum g n (2 * j + b) = bsum g 1 b + bsum (fun i => g (1 + i)%nat) (n - 1) j.
  Proof.
    intros L Hb. pose proof (bsum_split F g 1 (n - 1) b j) as E. replace (1 + (n - 1))%nat with n in E by lia.
    change (2 ^ 1)%nat with 2%nat in E. rewrite <- E by auto. f_equal. lia.
  Qed.

  (** Position [2j+b] of a domain maps to position [j] of the next one. *)
  Lemma domain_down n j b : (2 <= n <= d)%nat -> (b < 2)%nat ->
    hat (gam F basis n) 1 (elem (domain_basis basis n) (2 * j + b)) = elem (domain_basis basis (n - 1)) j.
  Proof.
    intros L Hb. rewrite !db_elem by lia.
    rewrite bsum_low1 by lia.
    rewrite hat_add by auto. rewrite <- bsum_shifted by auto.
    rewrite (bsum_ext F (shifted (gam F basis n) 1) (gam F basis (n - 1))) by (intros; apply gam_shift; lia).
    rewrite hat_bsum by auto. rewrite sumn_1. rewrite hat_low by (auto; lia). destruct (Nat.testbit b 0); ring.
  Qed.

  (** A polynomial over a domain splits into two over the next one. *)
  Lemma novel_split n m c j b : (1 <= n <= d)%nat -> (S m <= n)%nat -> (b < 2)%nat ->
    novel_poly (domain_basis basis n) (S m) c (elem (domain_basis basis n) (2 * j + b)) =
    novel_poly (domain_basis basis (n - 1)) m (fun k => c (2 * k)%nat + elem (domain_basis basis n) (2 * j + b) * c (2 * k + 1)%nat)
      (elem (domain_basis basis (n - 1)) j).
  Proof.
    intros L Lm Hb. unfold novel_poly. rewrite Nat.pow_succ_r', sumn_double. apply sumn_ext. intros k Hk.
    set (x := elem (domain_basis basis n) (2 * j + b)).
    assert (N : forall e, (e < 2)%nat -> novel (domain_basis basis n) (S m) (2 * k + e) x =
      (if (e =? 1)%nat then x else 1) * novel (domain_basis basis (n - 1)) m k (elem (domain_basis basis (n - 1)) j)).
    { intros e He. unfold novel. change (S m) with (1 + m)%nat. rewrite prodn_split, prodn_S, prodn_0.
      replace (Nat.testbit (2 * k + e) 0) with (e =? 1)%nat by (rewrite Nat.bit0_odd; symmetry; now apply odd_double).
      rewrite db_hat by lia. rewrite hat_first by (apply gam_first; lia). f_equal; [ring|].
      apply prodn_ext. intros i Hi.
      replace (Nat.testbit (2 * k + e) (1 + i)) with (Nat.testbit k i).
      2:{ pose proof (mix_bit_hi k e 1 (1 + i) ltac:(cbn; lia) ltac:(lia)) as Q. change (2 ^ 1)%nat with 2%nat in Q.
          rewrite (Nat.mul_comm 2 k), Q. f_equal. lia. }
      destruct (Nat.testbit k i); auto. rewrite !db_hat by lia.
      rewrite <- (domain_down n j b) by lia. fold x.
      rewrite <- (hat_shifted F H2 (gam F basis n) 1 (n - 1) i x) by (try lia; replace (1 + (n - 1))%nat with n by lia; apply indep_gam; unfold d in *; auto; lia).
      apply hat_ext. intros q Hq. apply gam_shift. lia. }
    rewrite (N 1%nat) by lia. pose proof (N 0%nat ltac:(lia)) as N0. rewrite Nat.add_0_r in N0. rewrite N0. cbn [Nat.eqb]. ring.
  Qed.

  (** One fold of a pair of codeword symbols. *)
  Lemma fold_pair_ok n m c j r : (1 <= n <= d)%nat -> (S m <= n)%nat -> (j < 2 ^ (n - 1))%nat ->
    let D := domain_basis basis n in
    fold_pair ts n j (novel_poly D (S m) c (elem D (2 * j))) (novel_poly D (S m) c (elem D (2 * j + 1))) r =
    Some (novel_poly (domain_basis basis (n - 1)) m (fun k => (1 - r) * c (2 * k)%nat + r * c (2 * k + 1)%nat)
            (elem (domain_basis basis (n - 1)) j)).
  Proof.
    intros L Lm Hj. cbv zeta. unfold fold_pair. rewrite (ntt_subspace_eval_correct F H2 basis BI B1 ts HT) by auto. cbn [obind]. f_equal.
    pose proof (novel_split n m c j 0 L Lm ltac:(lia)) as E0. pose proof (novel_split n m c j 1 L Lm ltac:(lia)) as E1.
    rewrite Nat.add_0_r in E0. rewrite E0, E1.
    set (x := elem (domain_basis basis n) (2 * j)).
    assert (X1 : elem (domain_basis basis n) (2 * j + 1) = x + 1).
    { unfold x. rewrite !db_elem by lia. replace (2 * j)%nat with (2 * j + 0)%nat at 2 by lia.
      rewrite !bsum_low1 by lia. rewrite bsum_0. unfold bsum at 1. rewrite sumn_1.
      change (Nat.testbit 1 0) with true. cbv iota. rewrite gam_first by lia. ring. }
    rewrite X1. rewrite !novel_poly_add, !novel_poly_scale. unfold extrapolate_line.
    set (A := novel_poly _ m (fun k => c (2 * k)%nat) _). set (B := novel_poly _ m (fun k => c (2 * k + 1)%nat) _).
    assert (D1 : A + (x + 1) * B + (A + x * B) = B).
    { transitivity ((A + A) + x * (B + B) + B); [ring|]. rewrite !char2_double by auto. ring. }
    rewrite D1. transitivity ((A + (x * B + x * B)) * (1 - r) + r * B); [ring|]. rewrite char2_double by auto. ring.
  Qed.

  (** One round in place. *)
  Lemma fold_round_ok n m c ci k r (vals : list F) : (1 <= n <= d)%nat -> (S m <= n)%nat -> (S k <= n)%nat ->
    (ci < 2 ^ (n - S k))%nat -> (2 ^ S k <= length vals)%nat ->
    (forall v, (v < 2 ^ S k)%nat -> nth v vals 0 = novel_poly (domain_basis basis n) (S m) c (elem (domain_basis basis n) (ci * 2 ^ S k + v))) ->
    exists vals', fold_round ts n (S k) ci vals r = Some vals' /\ length vals' = length vals /\
      forall v, (v < 2 ^ k)%nat -> nth v vals' 0 =
        novel_poly (domain_basis basis (n - 1)) m (fun k => (1 - r) * c (2 * k)%nat + r * c (2 * k + 1)%nat)
          (elem (domain_basis basis (n - 1)) (ci * 2 ^ k + v)).
  Proof.
    intros L Lm Lk Hc LV HV. unfold fold_round. replace (S k - 1)%nat with k by lia.
    set (G := fun v => novel_poly (domain_basis basis (n - 1)) m (fun k => (1 - r) * c (2 * k)%nat + r * c (2 * k + 1)%nat)
          (elem (domain_basis basis (n - 1)) (ci * 2 ^ k + v))).
    pose proof (pow2_S k) as PW.
    assert (IH : forall q, (q <= 2 ^ k)%nat -> exists s,
      ofold (fun values off => do a <- nth_error values (Nat.shiftl off 1);
        do b <- nth_error values (Nat.lor (Nat.shiftl off 1) 1);
        do x <- fold_pair ts n (Nat.lor (Nat.shiftl ci k) off) a b r; Some (upd values off x)) (seq 0 q) vals = Some s /\
      length s = length vals /\ forall v, (v < length vals)%nat -> nth v s 0 = if (v <? q)%nat then G v else nth v vals 0).
    { induction q as [|q IH]; intros Hq.
      - exists vals. auto.
      - destruct IH as [s [E [LS N]]]; [lia|]. rewrite seq_S, ofold_app, E. cbn [obind ofold Nat.add].
        rewrite shl_mul. rewrite lor_shiftl by (cbn; lia). change (2 ^ 1)%nat with 2%nat.
        rewrite (nth_error_nth_eq s _ 0) by lia. cbn [obind].
        rewrite (nth_error_nth_eq s _ 0) by lia. cbn [obind].
        rewrite !N by lia. rewrite !(proj2 (Nat.ltb_ge _ q)) by lia. rewrite !HV by lia.
        rewrite shl_mul, lor_shiftl by lia.
        replace (ci * 2 ^ S k + q * 2)%nat with (2 * (ci * 2 ^ k + q))%nat by lia.
        replace (ci * 2 ^ S k + (q * 2 + 1))%nat with (2 * (ci * 2 ^ k + q) + 1)%nat by lia.
        rewrite fold_pair_ok; auto.
        2:{ replace (n - 1)%nat with (k + (n - S k))%nat by lia. apply mix_lt; auto. }
        cbn [obind]. eexists. split; [reflexivity|]. split; [now rewrite upd_length|]. intros v Hv.
        rewrite upd_nth, LS, (proj2 (Nat.ltb_lt q (length vals))) by lia. rewrite andb_true_r.
        destruct (Nat.eqb_spec v q) as [->|NE].
        + rewrite (proj2 (Nat.ltb_lt q (S q))) by lia. reflexivity.
        + rewrite N by auto. destruct (Nat.ltb_spec v q), (Nat.ltb_spec v (S q)); auto; lia. }
    destruct (IH (2 ^ k)%nat (le_n _)) as [s [E [LS N]]]. exists s. split; auto. split; auto.
    intros v Hv. rewrite N by lia. now rewrite (proj2 (Nat.ltb_lt _ _)).
  Qed.

  Lemma fold_rounds_ok rs : forall n m c ci (vals : list F), (n <= d)%nat -> (length rs <= m <= n)%nat ->
    (ci < 2 ^ (n - length rs))%nat -> (2 ^ length rs <= length vals)%nat ->
    (forall v, (v < 2 ^ length rs)%nat -> nth v vals 0 = novel_poly (domain_basis basis n) m c (elem (domain_basis basis n) (ci * 2 ^ length rs + v))) ->
    exists vals', fold_rounds ts n (length rs) ci vals rs = Some vals' /\ (0 < length vals')%nat /\
      nth 0 vals' 0 = novel_poly (domain_basis basis (n - length rs)) (m - length rs)
        (fun j => mle (fun p => c (j * 2 ^ length rs + p)%nat) rs) (elem (domain_basis basis (n - length rs)) ci).
  Proof.
    induction rs as [|r rs IH]; intros n m c ci vals L Lm Hc LV HV.
    - cbn [fold_rounds length] in *. exists vals. split; auto. rewrite Nat.pow_0_r in *. split; [lia|]. rewrite HV by lia.
      rewrite !Nat.sub_0_r, Nat.mul_1_r, Nat.add_0_r. apply novel_poly_ext. intros j Hj. rewrite mle_nil. f_equal. lia.
    - cbn [length] in *. destruct m as [|m]; [lia|].
      destruct (fold_round_ok n m c ci (length rs) r vals) as [v1 [E1 [L1 N1]]]; auto; [lia|lia|lia|].
      cbn [fold_rounds]. rewrite E1. cbn [obind]. unfold underflows. rewrite (proj2 (Nat.ltb_ge n 1)) by lia.
      replace (S (length rs) - 1)%nat with (length rs) by lia. pose proof (pow2_S (length rs)) as PW.
      destruct (IH (n - 1)%nat m (fun k => (1 - r) * c (2 * k)%nat + r * c (2 * k + 1)%nat) ci v1) as [v2 [E2 [L2 N2]]]; auto; try lia.
      { replace (n - 1 - length rs)%nat with (n - S (length rs))%nat by lia. auto. }
      exists v2. split; auto. split; auto. rewrite N2.
      replace (n - 1 - length rs)%nat with (n - S (length rs))%nat by lia.
      replace (S m - S (length rs))%nat with (m - length rs)%nat by lia.
      apply novel_poly_ext. intros j Hj. rewrite mle_cons. apply mle_ext. intros p Hp.
      rewrite Nat.pow_succ_r'. f_equal; f_equal; f_equal; lia.
  Qed.

  (** C30 for one coset: folding the [2^k] symbols at positions [i*2^k ..] of the codeword of the
      polynomial with coefficients [c] gives symbol [i] of the codeword, over the domain of dimension
      [n-k], of the polynomial whose coefficient [j] is the multilinear extension at the challenges of
      the coefficients [j*2^k .. j*2^k + 2^k - 1]. *)
  Theorem fold_chunk_correct n m c ci (vals rs : list F) : (n <= length basis)%nat -> (length rs <= m <= n)%nat ->
    (ci < 2 ^ (n - length rs))%nat -> length vals = (2 ^ length rs)%nat ->
    let D := domain_basis basis n in
    let D' := domain_basis basis (n - length rs) in
    (forall v, (v < 2 ^ length rs)%nat -> nth v vals 0 = novel_poly D m c (elem D (ci * 2 ^ length rs + v))) ->
    fold_chunk ts n ci vals rs =
    Some (novel_poly D' (m - length rs) (fun j => mle (fun p => c (j * 2 ^ length rs + p)%nat) rs) (elem D' ci)).
  Proof.
    intros L Lm Hc LV D D' HV. unfold fold_chunk.
    destruct (fold_rounds_ok rs n m c ci vals) as [v [E [LP N]]]; auto; [lia|].
    rewrite E. cbn [obind]. rewrite (nth_error_nth_eq v 0 0) by auto. now rewrite N.
  Qed.

  (* ---------------------------------------------------------------- *)
  (** * Interleaved codewords *)
  Lemma chunks_spec {A} (n q : nat) : (0 < n)%nat -> forall (l : list A), length l = (q * n)%nat ->
    chunks n l = map (fun i => firstn n (skipn (i * n) l)) (seq 0 q).
  Proof.
    intros Hn. assert (G : forall q fuel (l : list A), length l = (q * n)%nat -> (q <= fuel)%nat ->
      chunks_fuel fuel n l = map (fun i => firstn n (skipn (i * n) l)) (seq 0 q)).
    { clear q. induction q as [|q IH]; intros fuel l L HF.
      - destruct l; [|cbn in L; lia]. now destruct fuel.
      - destruct fuel as [|fuel]; [lia|]. cbn [chunks_fuel]. destruct l as [|a l0] eqn:E; [cbn in L; nia|]. rewrite <- E in *. clear E.
        cbn [seq map]. rewrite Nat.mul_0_l. cbn [skipn]. f_equal.
        rewrite (IH fuel (skipn n l)); [|rewrite skipn_length; lia|lia]. rewrite <- seq_shift, map_map. apply map_ext. intros i.
        rewrite skipn_add. f_equal. }
    intros l L. apply G; auto. rewrite L. nia.
  Qed.

  Lemma dot_packed_spec lw lbs (chunk tensor : list F) : (lw <= lbs)%nat -> length chunk = (2 ^ lbs)%nat -> length tensor = (2 ^ lbs)%nat ->
    dot_packed lw lbs chunk tensor = sumn (2 ^ lbs) (fun x => nth x chunk 0 * nth x tensor 0).
  Proof.
    intros L LC LT. unfold dot_packed. set (prods := map (fun p => fst p * snd p) (combine chunk tensor)).
    assert (LP : length prods = (2 ^ lbs)%nat) by (unfold prods; rewrite map_length, combine_length; lia).
    assert (PW : (2 ^ lbs = 2 ^ (lbs - lw) * 2 ^ lw)%nat) by (rewrite <- Nat.pow_add_r; f_equal; lia).
    assert (DV : (length prods / 2 ^ lw = 2 ^ (lbs - lw))%nat) by (rewrite LP, PW; apply Nat.div_mul, Nat.pow_nonzero; lia).
    rewrite DV.
    rewrite firstn_all2.
    2:{ rewrite map_length, seq_length. apply pow2_le. lia. }
    change (fsum (map ?f (seq 0 ?n))) with (sumn n f).
    rewrite sumn_swap. rewrite <- (sumn_mul F (2 ^ (lbs - lw)) (2 ^ lw) (fun p => nth p prods 0)), <- PW. apply sumn_ext. intros x Hx. unfold prods.
    rewrite (nth_map_lt _ _ _ 0 (0, 0)) by (rewrite combine_length; lia). rewrite combine_nth by lia. reflexivity.
  Qed.

  Lemma novel_poly_mle (D : list F) m (f : nat -> nat -> F) ic x :
    novel_poly D m (fun j => mle (f j) ic) x = mle (fun i => novel_poly D m (fun j => f j i) x) ic.
  Proof.
    unfold novel_poly, mle.
    rewrite (sumn_ext F (2 ^ m) _ (fun j => sumn (2 ^ length ic) (fun i => f j i * eqw ic i * novel D m j x))) by (intros; symmetry; apply sumn_scale_r).
    rewrite sumn_swap. apply sumn_ext. intros i Hi. rewrite <- sumn_scale_r. apply sumn_ext. intros j Hj. ring.
  Qed.

  (** C30 for one coset of [2^log_batch] interleaved codewords: the coefficient [j] of message [x] is
      [msg (j * 2^log_batch + x)]; all challenges, those folding the batch first, evaluate the
      interleaved message partially. *)
  Theorem fold_interleaved_chunk_correct lw n m lbs msg ci (vals tensor ic rs scratch : list F) :
    (n <= length basis)%nat -> (length rs <= m <= n)%nat -> length ic = lbs -> (lbs = 0 \/ lw <= lbs)%nat ->
    (ci < 2 ^ (n - length rs))%nat ->
    length vals = (2 ^ (length rs + lbs - lw) * 2 ^ lw)%nat -> (2 ^ length rs <= length scratch)%nat ->
    (forall x, (x < 2 ^ lbs)%nat -> nth x tensor 0 = eqw ic x) -> length tensor = (2 ^ (lbs - lw) * 2 ^ lw)%nat ->
    let D := domain_basis basis n in
    let D' := domain_basis basis (n - length rs) in
    (forall v x, (v < 2 ^ length rs)%nat -> (x < 2 ^ lbs)%nat ->
       nth (v * 2 ^ lbs + x) vals 0 = novel_poly D m (fun j => msg (j * 2 ^ lbs + x)%nat) (elem D (ci * 2 ^ length rs + v))) ->
    fold_interleaved_chunk lw ts n lbs ci vals tensor rs scratch =
    Some (novel_poly D' (m - length rs) (fun j => mle (fun p => msg (j * 2 ^ (lbs + length rs) + p)%nat) (ic ++ rs)) (elem D' ci)).
  Proof.
    intros L Lm LI LW Hc LV LS HTn LT D D' HV. unfold fold_interleaved_chunk. rewrite (proj2 (Nat.ltb_ge _ _)) by auto. cbv zeta.
    set (k := length rs) in *.
    assert (PK : (0 < 2 ^ k)%nat) by apply pow2_pos.
    assert (GO : forall buf : list F, length buf = (2 ^ k)%nat ->
      (forall v, (v < 2 ^ k)%nat -> nth v buf 0 = sumn (2 ^ lbs) (fun x => nth (v * 2 ^ lbs + x) vals 0 * nth x tensor 0)) ->
      fold_chunk ts n ci buf rs = Some (novel_poly D' (m - k) (fun j => mle (fun p => msg (j * 2 ^ (lbs + k) + p)%nat) (ic ++ rs)) (elem D' ci))).
    { intros buf LB HB. rewrite (fold_chunk_correct n m (fun j => mle (fun x => msg (j * 2 ^ lbs + x)%nat) ic) ci buf rs); auto.
      - f_equal. apply novel_poly_ext. intros j Hj. rewrite mle_app_low. apply mle_ext. intros p Hp. apply mle_ext. intros x Hx.
        f_equal. rewrite LI, Nat.pow_add_r. fold k. lia.
      - intros v Hv. rewrite HB by auto. fold D. rewrite novel_poly_mle. unfold mle. rewrite LI. apply sumn_ext. intros x Hx.
        rewrite HTn, HV by auto. reflexivity. }
    destruct (Nat.eqb_spec lbs 0) as [Z|Z].
    - cbn [obind]. assert (LVK : (2 ^ k <= length vals)%nat).
      { rewrite LV, Z, Nat.add_0_r, pow_sub_mul. apply pow2_le. lia. }
      assert (LF : length (firstn (2 ^ k) scratch) = (2 ^ k)%nat) by (rewrite firstn_length; lia).
      unfold zip_assign. rewrite LF. rewrite skipn_all2 by lia. rewrite app_nil_r. apply GO.
      + rewrite firstn_length. lia.
      + intros v Hv. rewrite nth_firstn_lt by auto. rewrite Z. change (2 ^ 0)%nat with 1%nat. rewrite sumn_1.
        rewrite (HTn 0%nat) by (rewrite Z; cbn; lia). destruct ic as [|i0 ic']; [|cbn in LI; lia]. cbn [eqw].
        rewrite Nat.mul_1_r, Nat.add_0_r. ring.
    - destruct LW as [LW|LW]; [lia|]. unfold underflows. rewrite (proj2 (Nat.ltb_ge lbs lw)) by auto. cbn [obind].
      assert (PB : (2 ^ (lbs - lw) * 2 ^ lw = 2 ^ lbs)%nat) by (rewrite <- Nat.pow_add_r; f_equal; lia).
      rewrite PB in *.
      assert (LV' : length vals = (2 ^ k * 2 ^ lbs)%nat) by (rewrite LV, <- !Nat.pow_add_r; f_equal; lia).
      rewrite (chunks_spec (2 ^ lbs) (2 ^ k)) by auto using pow2_pos.
      set (fv := map _ (map _ _)).
      assert (LFV : length fv = (2 ^ k)%nat) by (unfold fv; now rewrite !map_length, seq_length).
      assert (LF : length (firstn (2 ^ k) scratch) = (2 ^ k)%nat) by (rewrite firstn_length; lia).
      unfold zip_assign. rewrite LF, skipn_all2 by lia. rewrite app_nil_r, firstn_all2 by lia. apply GO; auto.
      intros v Hv. unfold fv. rewrite map_map, nth_map_seq by auto.
      assert (LCH : length (firstn (2 ^ lbs) (skipn (v * 2 ^ lbs) vals)) = (2 ^ lbs)%nat) by (rewrite firstn_length, skipn_length; nia).
      rewrite dot_packed_spec by auto. apply sumn_ext. intros x Hx. rewrite nth_firstn_lt by auto. now rewrite nth_skipn'.
  Qed.

  (** C30 for the whole codeword. *)
  Theorem fold_interleaved_correct lw n m lbs msg (codeword challenges : list F) stale :
    (n <= length basis)%nat -> (lbs <= length challenges)%nat -> (lw <= length challenges)%nat ->
    (lbs = 0 \/ lw <= lbs)%nat ->
    let k := (length challenges - lbs)%nat in
    (k <= m <= n)%nat -> (forall i, (2 ^ k <= length (stale i))%nat) ->
    length codeword = (2 ^ (n + lbs))%nat ->
    let D := domain_basis basis n in
    let D' := domain_basis basis (n - k) in
    (forall y x, (y < 2 ^ n)%nat -> (x < 2 ^ lbs)%nat ->
       nth (y * 2 ^ lbs + x) codeword 0 = novel_poly D m (fun j => msg (j * 2 ^ lbs + x)%nat) (elem D y)) ->
    fold_interleaved lw ts codeword challenges n lbs stale =
    Some (map (fun y => novel_poly D' (m - k) (fun j => mle (fun p => msg (j * 2 ^ length challenges + p)%nat) challenges) (elem D' y))
              (seq 0 (2 ^ (n - k)))).
  Proof.
    intros L LB LWC LW k Lm LS LC D D' HV. unfold fold_interleaved, fold_interleaved_allocated. fold k.
    assert (LC' : length codeword = (2 ^ (n + lbs - lw) * 2 ^ lw)%nat) by (rewrite LC, <- Nat.pow_add_r; f_equal; unfold k in *; lia).
    rewrite LC', Nat.eqb_refl. cbn [negb]. rewrite (proj2 (Nat.ltb_ge _ _)) by auto. unfold underflows.
    rewrite (proj2 (Nat.ltb_ge n k)) by lia. rewrite repeat_length, Nat.eqb_refl. cbn [negb]. cbv zeta.
    set (ic := firstn lbs challenges). set (rs := skipn lbs challenges).
    assert (LI : length ic = lbs) by (unfold ic; rewrite firstn_length; lia).
    assert (LR : length rs = k) by (unfold rs; rewrite skipn_length; reflexivity).
    assert (AP : ic ++ rs = challenges) by apply firstn_skipn.
    destruct (query_expand_correct F lw ic) as [q [EQ HQ]]. rewrite EQ.
    destruct (expansion_correct F lw _ q ic HQ) as [tensor [ET [LT HTn]]]. rewrite ET. cbn [obind]. rewrite LI in *.
    assert (CH : (2 ^ (length challenges - lw) * 2 ^ lw = 2 ^ (k + lbs))%nat) by (rewrite <- Nat.pow_add_r; f_equal; unfold k; lia).
    rewrite CH. rewrite (chunks_spec (2 ^ (k + lbs)) (2 ^ (n - k))); [|apply pow2_pos|].
    2:{ rewrite LC, <- Nat.pow_add_r. f_equal. lia. }
    set (N := (2 ^ (n - k))%nat).
    rewrite map_length, seq_length.
    set (ch := fun i => firstn (2 ^ (k + lbs)) (skipn (i * 2 ^ (k + lbs)) codeword)).
    assert (CB : combine (seq 0 N) (map ch (seq 0 N)) = map (fun i => (i, ch i)) (seq 0 N)).
    { generalize (seq 0 N). intros l. induction l as [|a l IH]; cbn; [reflexivity|]. now rewrite IH. }
    rewrite CB, firstn_all2 by (rewrite map_length, seq_length; lia).
    set (R := fun y => novel_poly D' (m - k) (fun j => mle (fun p => msg (j * 2 ^ length challenges + p)%nat) challenges) (elem D' y)).
    assert (OM : omap (fun '(i, chunk) => fold_interleaved_chunk lw ts n lbs i chunk tensor rs (stale i)) (map (fun i => (i, ch i)) (seq 0 N)) = Some (map R (seq 0 N))).
    { assert (G : forall l, (forall i, In i l -> (i < N)%nat) ->
        omap (fun '(i, chunk) => fold_interleaved_chunk lw ts n lbs i chunk tensor rs (stale i)) (map (fun i => (i, ch i)) l) = Some (map R l)).
      { induction l as [|i l IH]; intros Hl; [reflexivity|]. cbn [map omap].
        assert (Hi : (i < 2 ^ (n - k))%nat) by (apply Hl; now left).
        pose proof (pow2_S 0) as _. assert (PN : (2 ^ (n + lbs) = 2 ^ (n - k) * 2 ^ (k + lbs))%nat) by (rewrite <- Nat.pow_add_r; f_equal; lia).
        rewrite (fold_interleaved_chunk_correct lw n m lbs msg i (ch i) tensor ic rs (stale i)); auto.
        - cbn [obind]. rewrite IH by (intros; apply Hl; now right). cbn [obind]. unfold R. rewrite LR, AP.
          replace (lbs + k)%nat with (length challenges) by (unfold k; lia). reflexivity.
        - rewrite LR. auto.
        - rewrite LR. auto.
        - rewrite LR. unfold ch. rewrite firstn_length, skipn_length, LC, PN.
          replace (k + lbs - lw)%nat with (length challenges - lw)%nat by (unfold k; lia). rewrite CH.
          rewrite Nat.min_l; [reflexivity|]. nia.
        - rewrite LR. auto.
        - rewrite LR. intros v x Hv Hx. unfold ch.
          assert (VX : (v * 2 ^ lbs + x < 2 ^ (k + lbs))%nat) by (rewrite (Nat.add_comm k); now apply mix_lt).
          rewrite nth_firstn_lt by auto. rewrite nth_skipn'.
          replace (i * 2 ^ (k + lbs) + (v * 2 ^ lbs + x))%nat with ((i * 2 ^ k + v) * 2 ^ lbs + x)%nat by (rewrite Nat.pow_add_r; lia).
          apply HV; auto. replace n with (k + (n - k))%nat by lia. now apply mix_lt. }
      apply G. intros i Hi. apply in_seq in Hi. lia. }
    rewrite OM. cbn [obind]. unfold zip_assign. rewrite skipn_all2 by (rewrite repeat_length, map_length, seq_length; reflexivity).
    rewrite firstn_all2 by (rewrite repeat_length, map_length, seq_length; reflexivity). now rewrite app_nil_r.
  Qed.
End Props.

Lemma scalar_concat {F : field} lw (D : list (list F)) p : well_packed lw D -> nth p (concat D) f0 = scalar_at lw D p.
Proof.
  intros W. unfold scalar_at. pose proof (pow2_pos lw) as P.
  revert p. induction D as [|a D IH]; intros p.
  - cbn [concat]. assert (N : forall q, nth q (@nil F) f0 = f0) by (now intros [|q]). rewrite N.
    destruct (p / 2 ^ lw); cbn [nth]; symmetry; apply N.
  - cbn [concat]. assert (LA : length a = 2 ^ lw) by (apply W; now left).
    destruct (Nat.lt_ge_cases p (2 ^ lw)) as [Q|Q].
    + rewrite app_nth1 by lia. now rewrite Nat.div_small, Nat.mod_small.
    + rewrite app_nth2 by lia. rewrite LA, IH by (intros q Hq; apply W; now right).
      replace p with ((p - 2 ^ lw) + 1 * 2 ^ lw) at 3 4 by lia.
      rewrite Nat.div_add, Nat.mod_add by lia. replace ((p - 2 ^ lw) / 2 ^ lw + 1) with (S ((p - 2 ^ lw) / 2 ^ lw)) by lia. reflexivity.
Qed.

Lemma concat_length_packed {F : field} lw (D : list (list F)) : well_packed lw D -> length (concat D) = length D * 2 ^ lw.
Proof.
  induction D as [|a D IH]; intros W; [reflexivity|]. cbn [concat length]. rewrite app_length, IH by (intros q Hq; apply W; now right).
  rewrite (W a) by now left. lia.
Qed.

Section Commute.
  Variable F : field.
  Hypothesis H2 : char2 F.
  Local Open Scope fld_scope.
  Variable basis : list F.
  Hypothesis BI : lin_indep basis.
  Hypothesis B1 : nth 0 basis 0 = 1.
  Variable ts : list (twiddle F).
  Hypothesis HT : tables F basis ts.

  (** C30: encode a batch of messages, fold the interleaved codeword with the challenges; the result is
      the encoding, in the code of [2^k]-fold smaller dimension and the same rate, of the single message
      whose coefficients are the partial evaluations of the interleaved message at the challenges. *)
  Theorem fri_fold_commutes lw lw' ld lr lbs code out challenges stale code' :
    (1 <= ld + lr <= length basis)%nat -> well_packed lw code -> length code = (2 ^ (ld + lr + lbs - lw))%nat ->
    (lw <= ld + lbs)%nat ->
    encode_batch_inplace lw ts (mkRs (domain_basis basis (ld + lr)) ld lr) code lbs = Ok out ->
    let k := (length challenges - lbs)%nat in
    (lbs <= length challenges)%nat -> (k <= ld)%nat -> (1 <= ld - k + lr)%nat ->
    (lw' <= length challenges)%nat -> (lbs = 0 \/ lw' <= lbs)%nat -> (forall i, (2 ^ k <= length (stale i))%nat) ->
    well_packed 0 code' -> length code' = (2 ^ (ld - k + lr))%nat ->
    (forall j, (j < 2 ^ (ld - k))%nat -> scalar_at 0 code' j = mle (fun p => scalar_at lw code (j * 2 ^ length challenges + p)) challenges) ->
    exists out', encode_batch_inplace 0 ts (mkRs (domain_basis basis (ld - k + lr)) (ld - k) lr) code' 0 = Ok out' /\
      fold_interleaved lw' ts (concat out) challenges (ld + lr) lbs stale = Some (concat out').
  Proof.
    intros LD W LC LW EO k LB LK L1 LW' LWB LS W' LC' HM.
    destruct (rs_encode_correct F H2 basis BI B1 ts HT lw ld lr lbs code LD W LC (or_introl LW)) as [o [EO' [LO [WO HO]]]].
    rewrite EO in EO'. injection EO' as <-.
    destruct (rs_encode_correct F H2 basis BI B1 ts HT 0 (ld - k) lr 0 code') as [o' [EO2 [LO' [WO' HO']]]]; auto.
    { lia. } { rewrite LC'. f_equal. lia. } { lia. }
    exists o'. split; [exact EO2|].
    assert (LCO : length (concat out) = (2 ^ (ld + lr + lbs))%nat).
    { rewrite (concat_length_packed lw) by auto. rewrite LO, LC, <- Nat.pow_add_r. f_equal. lia. }
    rewrite (fold_interleaved_correct F H2 basis BI B1 ts HT lw' (ld + lr) ld lbs (scalar_at lw code)); auto; try (fold k; lia).
    2:{ intros y x Hy Hx. rewrite (scalar_concat lw) by auto. now apply HO. }
    f_equal. fold k.
    assert (LC2 : length (concat o') = (2 ^ (ld + lr - k))%nat).
    { rewrite (concat_length_packed 0) by auto. rewrite LO', LC', Nat.pow_0_r, Nat.mul_1_r. f_equal. lia. }
    apply (list_eq_nth _ _ f0).
    { now rewrite map_length, seq_length. }
    intros y Hy. rewrite map_length, seq_length in Hy. rewrite nth_map_seq by auto.
    rewrite (scalar_concat 0) by auto.
    pose proof (HO' y 0%nat) as E. rewrite Nat.pow_0_r, Nat.mul_1_r, Nat.add_0_r in E.
    replace (ld + lr - k)%nat with (ld - k + lr)%nat in * by lia.
    rewrite E by (auto; lia). apply novel_poly_ext. intros j Hj. rewrite Nat.mul_1_r, Nat.add_0_r. now rewrite HM.
  Qed.
End Commute.

(** With packed elements wider than the number of challenges the loop pairs each packed element, which
    holds several cosets, with one output: the rest of the output is never written. *)
Definition fold_ex_ts : list (twiddle X16) := match otf_generate (els [1; 2; 4]%N) with Ok ts => ts | _ => [] end.

Theorem fold_interleaved_wide_refuted : exists codeword challenge out,
  fold_interleaved 2 fold_ex_ts codeword [challenge] 3 0 (fun _ => els [0; 0]%N) = Some out /\
  (exists m c, m <= 3 /\ forall y, y < 8 -> nth y codeword f0 = novel_poly (els [1; 2; 4]%N) m c (elem (els [1; 2; 4]%N) y)) /\
  fold_chunk fold_ex_ts 3 3 (firstn 2 (skipn 6 codeword)) [challenge] <> Some (nth 3 out f0).
Proof.
  set (B := els [1; 2; 4]%N). set (codeword := map (fun y => novel_poly B 0 (fun _ => el 1) (elem B y)) (seq 0 8)).
  destruct (fold_interleaved 2 fold_ex_ts codeword [el 3] 3 0 (fun _ => els [0; 0]%N)) as [out|] eqn:E; [|vm_compute in E; discriminate].
  exists codeword, (el 3), out. split; [exact E|]. split.
  - exists 0, (fun _ => el 1). split; [lia|]. intros y Hy. unfold codeword. now rewrite nth_map_seq.
  - intros Q.
    assert (E' : match fold_interleaved 2 fold_ex_ts codeword [el 3] 3 0 (fun _ => els [0; 0]%N) with
                 | Some out => option_map bits (fold_chunk fold_ex_ts 3 3 (firstn 2 (skipn 6 codeword)) [el 3]) = Some (bits (nth 3 out f0))
                 | None => True end) by (rewrite E, Q; reflexivity).
    vm_compute in E'. discriminate.
Qed.

(** Encoding two interleaved messages of four coefficients and folding with three challenges. *)
Example fri_fold_ex :
  match otf_generate (els [1; 2; 4]%N) with
  | Ok ts =>
    match with_ntt_subspace ts 2 1, with_ntt_subspace ts 1 1 with
    | Ok rs, Ok rs' =>
      let code := [els [1; 2]; els [3; 4]; els [5; 6]; els [7; 8]; els [0; 0]; els [0; 0]; els [0; 0]; els [0; 0]]%N in
      let r := els [9; 5]%N in
      let code' := map (fun j => [mle (fun p => scalar_at 1 code (j * 4 + p)) r]) (seq 0 2) ++ [els [0]; els [0]]%N in
      match encode_batch_inplace 1 ts rs code 1, encode_batch_inplace 0 ts rs' code' 0 with
      | Ok out, Ok out' =>
          option_map (map bits) (fold_interleaved 1 ts (concat out) r 3 1 (fun _ => els [0; 0]%N)) = Some (map bits (concat out'))
      | _, _ => False end
    | _, _ => False end
  | _ => False end.
Proof. vm_compute. reflexivity. Qed.
