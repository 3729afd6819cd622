Require Import Coq.Arith.Arith Coq.NArith.NArith Coq.Lists.List Coq.Bool.Bool Lia.
Require Import Verif.Base.Fld Verif.Base.Bits Verif.Field.Quad Verif.Field.TowerModel
  Verif.Field.TowerProofs Verif.Field.TowerBases Verif.Field.PackedModel.
Import ListNotations.
Local Open Scope N_scope.

Lemma shl_bit w a n p :
  N.testbit (shl w a n) p = ((p <? nbits w) && (n <=? p) && N.testbit a (p - n))%bool.
Proof.
  unfold shl. rewrite testbit_land_ones, testbit_shiftl. destruct (p <? nbits w), (n <=? p), (N.testbit a (p - n)); auto.
Qed.

Lemma shl_inr w a n : inr w (shl w a n).
Proof. apply inr_bits. intros i Hi. rewrite shl_bit. destruct (N.ltb_spec i (nbits w)); auto; lia. Qed.

Lemma lor_inr w a b : inr w a -> inr w b -> inr w (N.lor a b).
Proof. rewrite !inr_nbits. apply lor_lt. Qed.
Lemma lxor_inr w a b : inr w a -> inr w b -> inr w (N.lxor a b).
Proof. rewrite !inr_nbits. apply lxor_lt. Qed.
Lemma land_inr_l w a b : inr w a -> inr w (N.land a b).
Proof. rewrite !inr_bits. intros H i Hi. now rewrite N.land_spec, H. Qed.
Lemma land_inr_r w a b : inr w b -> inr w (N.land a b).
Proof. rewrite N.land_comm. apply land_inr_l. Qed.
Lemma shiftr_inr w a n : inr w a -> inr w (N.shiftr a n).
Proof. rewrite !inr_bits. intros H i Hi. rewrite N.shiftr_spec by lia. apply H. lia. Qed.
Lemma ldiff_inr w a b : inr w a -> inr w (N.ldiff a b).
Proof. rewrite !inr_bits. intros H i Hi. now rewrite N.ldiff_spec, H. Qed.

Lemma lane_bit k a i r :
  N.testbit (lane k a i) r = ((r <? nbits k) && N.testbit a (N.of_nat i * nbits k + r))%bool.
Proof. apply tget_base_bit. Qed.

Lemma lane_inr k a i : inr k (lane k a i).
Proof. apply tget_base_inr. Qed.

Lemma lane_ext w k a b : (k <= w)%nat -> inr w a -> inr w b ->
  (forall i, (i < 2 ^ (w - k))%nat -> lane k a i = lane k b i) -> a = b.
Proof.
  intros Hk Ha Hb H. apply (blocks_inj (w - k) k); auto;
    now replace (w - k + k)%nat with w by lia.
Qed.

Lemma lane_land k a b i : lane k (N.land a b) i = N.land (lane k a i) (lane k b i).
Proof.
  apply N.bits_inj. intros r. rewrite N.land_spec, !lane_bit, N.land_spec.
  destruct (r <? nbits k), (N.testbit a _); auto.
Qed.
Lemma lane_lor k a b i : lane k (N.lor a b) i = N.lor (lane k a i) (lane k b i).
Proof.
  apply N.bits_inj. intros r. rewrite N.lor_spec, !lane_bit, N.lor_spec.
  destruct (r <? nbits k), (N.testbit a _); auto.
Qed.
Lemma lane_lxor k a b i : lane k (N.lxor a b) i = N.lxor (lane k a i) (lane k b i).
Proof. apply (tget_base_xor k a b i). Qed.
Lemma lane_0 k i : lane k 0 i = 0.
Proof. unfold lane, tget_base. now rewrite N.shiftr_0_l. Qed.

Lemma lane_shiftr k a i : lane k (N.shiftr a (nbits k)) i = lane k a (S i).
Proof.
  unfold lane, tget_base. rewrite N.shiftr_shiftr. do 2 f_equal. lia.
Qed.

Lemma lane_fits w k i : (k <= w)%nat -> (i < 2 ^ (w - k))%nat ->
  N.of_nat i * nbits k + nbits k <= nbits w.
Proof.
  intros Hk Hi. replace w with (w - k + k)%nat by lia. rewrite nbits_add.
  pose proof (blk_lt i (w - k) Hi). pose proof (nbits_pos k). nia.
Qed.

Lemma lane_out w k a i : (k <= w)%nat -> inr w a -> (2 ^ (w - k) <= i)%nat -> lane k a i = 0.
Proof.
  intros Hk Ha Hi. apply N.bits_inj. intros r. rewrite lane_bit, N.bits_0.
  rewrite (proj1 (inr_bits w a) Ha); [apply andb_false_r|].
  replace w with (w - k + k)%nat by lia. rewrite nbits_add, <- nbits_nat.
  assert (N.of_nat (2 ^ (w - k)) <= N.of_nat i) by lia. pose proof (nbits_pos k). nia.
Qed.

(** Shifting up by whole lanes. *)
Lemma lane_shl_lanes w k a m i : (k <= w)%nat -> (i < 2 ^ (w - k))%nat -> 
  lane k (shl w a (N.of_nat m * nbits k)) i = if (i <? m)%nat then 0 else lane k a (i - m).
Proof.
  intros Hk Hi. pose proof (lane_fits w k i Hk Hi). pose proof (nbits_pos k).
  apply N.bits_inj. intros r. rewrite lane_bit, shl_bit.
  destruct (N.ltb_spec r (nbits k)) as [L|L]; cbn [andb].
  - rewrite (proj2 (N.ltb_lt _ _)) by lia. cbn [andb].
    destruct (Nat.ltb_spec i m).
    + rewrite N.bits_0. apply andb_false_intro1. apply N.leb_gt.
      assert (N.of_nat i + 1 <= N.of_nat m) by lia. nia.
    + rewrite (proj2 (N.leb_le _ _)) by (assert (N.of_nat m <= N.of_nat i) by lia; nia).
      cbn [andb]. rewrite lane_bit, (proj2 (N.ltb_lt _ _) L). cbn [andb]. f_equal.
      rewrite Nat2N.inj_sub. assert (N.of_nat m <= N.of_nat i) by lia. nia.
  - destruct (i <? m)%nat; [now rewrite N.bits_0|]. rewrite lane_bit.
    now rewrite (proj2 (N.ltb_ge _ _) L).
Qed.

Lemma lane_shl w k a i : (k <= w)%nat -> (S i < 2 ^ (w - k))%nat ->
  lane k (shl w a (nbits k)) (S i) = lane k a i.
Proof.
  intros Hk Hi. replace (nbits k) with (N.of_nat 1 * nbits k) by lia.
  rewrite lane_shl_lanes by auto. cbn [Nat.ltb Nat.leb]. f_equal. lia.
Qed.
Lemma lane_shl_O w k a : (k <= w)%nat -> lane k (shl w a (nbits k)) 0 = 0.
Proof.
  intros Hk. replace (nbits k) with (N.of_nat 1 * nbits k) by lia.
  rewrite lane_shl_lanes; auto. apply Nat.neq_0_lt_0, Nat.pow_nonzero; lia.
Qed.

(** A lane of level k+1 is a pair of lanes of level k. *)
Lemma lane_even k a i : lane k a (2 * i) = lo k (lane (S k) a i).
Proof.
  apply N.bits_inj. intros r. rewrite lo_bit, !lane_bit, nbits_S.
  destruct (N.ltb_spec r (nbits k)); rewrite ?andb_false_r; auto.
  rewrite (proj2 (N.ltb_lt r (nbits k + nbits k))) by (pose proof (nbits_pos k); lia).
  cbn [andb]. rewrite andb_true_r. f_equal. rewrite Nat2N.inj_mul. lia.
Qed.
Lemma lane_odd k a i : lane k a (S (2 * i)) = hi k (lane (S k) a i).
Proof.
  apply N.bits_inj. intros r. rewrite hi_bit, !lane_bit, nbits_S.
  destruct (N.ltb_spec r (nbits k)); rewrite ?andb_false_r; auto.
  rewrite (proj2 (N.ltb_lt (r + nbits k) (nbits k + nbits k))) by lia.
  cbn [andb]. rewrite andb_true_r. f_equal. rewrite Nat2N.inj_succ, Nat2N.inj_mul. lia.
Qed.
Lemma lane_join k a i : lane (S k) a i = join k (lane k a (2 * i)) (lane k a (S (2 * i))).
Proof. rewrite lane_even, lane_odd. symmetry. apply join_lo_hi, lane_inr. Qed.

Lemma lane_id k a : inr k a -> lane k a 0 = a.
Proof. intros. unfold lane. rewrite tget_base_0. now apply trunc_id. Qed.

Lemma parity i : exists j, i = (2 * j)%nat \/ i = S (2 * j).
Proof. exists (i / 2)%nat. pose proof (Nat.div_mod i 2). pose proof (Nat.mod_upper_bound i 2). lia. Qed.

(** The doubling loop. *)
Lemma dup_join w j v : (S j <= w)%nat -> inr j v -> N.lor v (shl w v (nbits j)) = join j v v.
Proof.
  intros Hj Hv. unfold join. f_equal. unfold shl.
  assert (I : inr w (N.shiftl v (nbits j))).
  { apply (inr_le (S j)); auto. apply inr_bits. intros i Hi. rewrite testbit_shiftl.
    rewrite nbits_S in Hi. rewrite (proj1 (inr_bits j v) Hv) by lia. now rewrite andb_false_r. }
  now apply (trunc_id w) in I.
Qed.

Lemma rep_spec w : forall m j v, (j + m <= w)%nat -> inr j v ->
  inr (j + m) (rep w v j m) /\ forall i, (i < 2 ^ m)%nat -> lane j (rep w v j m) i = v.
Proof.
  induction m; intros j v Hw Hv; cbn [rep].
  - rewrite Nat.add_0_r. split; auto. intros i Hi. cbn in Hi. assert (i = O) by lia. subst.
    now apply lane_id.
  - rewrite dup_join by (auto; lia).
    destruct (IHm (S j) (join j v v)) as [I L]; [lia|now apply join_inr|].
    split; [replace (j + S m)%nat with (S j + m)%nat by lia; auto|].
    intros i Hi. cbn [Nat.pow] in Hi. destruct (parity i) as [q [-> | ->]].
    + rewrite lane_even, L, lo_join by (auto; lia). auto.
    + rewrite lane_odd, L, hi_join by (auto; lia). auto.
Qed.

Lemma ones_inr k : inr k (N.ones (nbits k)).
Proof. apply inr_bits. intros i Hi. apply N.ones_spec_high. lia. Qed.

Lemma land_ones_inr k a : inr k a -> N.land a (N.ones (nbits k)) = a.
Proof. apply trunc_id. Qed.

Section Masks.
  Variables w k : nat.
  Hypothesis Hk : (S k <= w)%nat.

  Lemma half_lt i : (i < 2 ^ (w - S k))%nat -> (S (2 * i) < 2 ^ (w - k))%nat.
  Proof. replace (w - k)%nat with (S (w - S k)) by lia. cbn [Nat.pow]. lia. Qed.
  Lemma half_lt' i : (i < 2 ^ (w - S k))%nat -> (2 * i < 2 ^ (w - k))%nat.
  Proof. intros H. apply half_lt in H. lia. Qed.

  Lemma mask_even_lane i : (i < 2 ^ (w - S k))%nat ->
    lane (S k) (mask_even w k) i = N.ones (nbits k).
  Proof.
    intros Hi. unfold mask_even.
    apply (rep_spec w (w - k - 1) (S k)); [lia|apply inr_S, ones_inr|].
    now replace (w - k - 1)%nat with (w - S k)%nat by lia.
  Qed.
  Lemma mask_even_inr : inr w (mask_even w k).
  Proof.
    unfold mask_even. pose proof (rep_spec w (w - k - 1) (S k) (N.ones (nbits k))) as H.
    apply (inr_le (S k + (w - k - 1))); [lia|]. apply H; [lia|apply inr_S, ones_inr].
  Qed.
  Lemma mask_even_e i : (i < 2 ^ (w - S k))%nat -> lane k (mask_even w k) (2 * i) = N.ones (nbits k).
  Proof. intros. rewrite lane_even, mask_even_lane by auto. apply lo_small, ones_inr. Qed.
  Lemma mask_even_o i : (i < 2 ^ (w - S k))%nat -> lane k (mask_even w k) (S (2 * i)) = 0.
  Proof. intros. rewrite lane_odd, mask_even_lane by auto. apply hi_small, ones_inr. Qed.
  Lemma mask_odd_o i : (i < 2 ^ (w - S k))%nat -> lane k (mask_odd w k) (S (2 * i)) = N.ones (nbits k).
  Proof. intros. unfold mask_odd. rewrite lane_shl by (try lia; now apply half_lt). now apply mask_even_e. Qed.
  Lemma shl_masked_e x i : (i < 2 ^ (w - S k))%nat ->
    lane k (shl w (N.land x (mask_even w k)) (nbits k)) (2 * i) = 0.
  Proof.
    intros Hi. destruct i as [|j].
    - apply lane_shl_O. lia.
    - replace (2 * S j)%nat with (S (S (2 * j))) by lia.
      rewrite lane_shl by (try lia; apply half_lt' in Hi; lia).
      rewrite lane_land, mask_even_o by lia. apply N.land_0_r.
  Qed.
  Lemma mask_odd_e i : (i < 2 ^ (w - S k))%nat -> lane k (mask_odd w k) (2 * i) = 0.
  Proof.
    intros Hi. unfold mask_odd.
    replace (mask_even w k) with (N.land (mask_even w k) (mask_even w k)) by apply N.land_diag.
    now apply shl_masked_e.
  Qed.
  Lemma mask_odd_inr : inr w (mask_odd w k).
  Proof. apply shl_inr. Qed.

  Lemma alphas_lane i : (i < 2 ^ (w - S k))%nat -> lane (S k) (alphas w k) i = alpha_pat k.
  Proof.
    intros Hi. unfold alphas.
    replace (match k with O => 1 | S k' => N.shiftl 1 (nbits k') end) with (alpha_pat k)
      by (destruct k; reflexivity).
    apply (rep_spec w (w - k - 1) (S k)); [lia|apply inr_S, alpha_pat_inr|].
    now replace (w - k - 1)%nat with (w - S k)%nat by lia.
  Qed.
  Lemma alphas_inr : inr w (alphas w k).
  Proof.
    unfold alphas.
    replace (match k with O => 1 | S k' => N.shiftl 1 (nbits k') end) with (alpha_pat k)
      by (destruct k; reflexivity).
    pose proof (rep_spec w (w - k - 1) (S k) (alpha_pat k)) as H.
    apply (inr_le (S k + (w - k - 1))); [lia|]. apply H; [lia|apply inr_S, alpha_pat_inr].
  Qed.
  Lemma alphas_e i : (i < 2 ^ (w - S k))%nat -> lane k (alphas w k) (2 * i) = alpha_pat k.
  Proof. intros. rewrite lane_even, alphas_lane by auto. apply lo_small, alpha_pat_inr. Qed.
  Lemma alphas_o i : (i < 2 ^ (w - S k))%nat -> lane k (alphas w k) (S (2 * i)) = 0.
  Proof. intros. rewrite lane_odd, alphas_lane by auto. apply hi_small, alpha_pat_inr. Qed.

  Lemma land_lane_ones a i : N.land (lane k a i) (N.ones (nbits k)) = lane k a i.
  Proof. apply land_ones_inr, lane_inr. Qed.

  (** interleave: even/odd lanes of both results. *)
  Lemma interleave_lanes a b : inr w a -> inr w b ->
    let '(c, d) := interleave_raw w k a b in
    inr w c /\ inr w d /\ forall i, (i < 2 ^ (w - S k))%nat ->
      lane k c (2 * i) = lane k a (2 * i) /\ lane k c (S (2 * i)) = lane k b (2 * i) /\
      lane k d (2 * i) = lane k a (S (2 * i)) /\ lane k d (S (2 * i)) = lane k b (S (2 * i)).
  Proof.
    intros Ha Hb. unfold interleave_raw.
    set (x := N.lxor (N.shiftr a (nbits k)) b).
    split; [apply lxor_inr; auto using shl_inr|].
    split; [apply lxor_inr; auto; apply land_inr_r, mask_even_inr|].
    intros i Hi. repeat split.
    - rewrite lane_lxor, shl_masked_e by auto. apply N.lxor_0_r.
    - rewrite lane_lxor, lane_shl by (try lia; now apply half_lt).
      rewrite lane_land, mask_even_e, land_lane_ones by auto. unfold x.
      rewrite lane_lxor, lane_shiftr, <- N.lxor_assoc, N.lxor_nilpotent. apply N.lxor_0_l.
    - rewrite lane_lxor, lane_land, mask_even_e, land_lane_ones by auto. unfold x.
      rewrite lane_lxor, lane_shiftr, (N.lxor_comm (lane k a _)), <- N.lxor_assoc, N.lxor_nilpotent.
      apply N.lxor_0_l.
    - rewrite lane_lxor, lane_land, mask_even_o by auto. rewrite N.land_0_r. apply N.lxor_0_r.
  Qed.

  Lemma xor_adjacent_lanes a : inr w a ->
    inr w (xor_adjacent w k a) /\ forall i, (i < 2 ^ (w - S k))%nat ->
      lane k (xor_adjacent w k a) (2 * i) = N.lxor (lane k a (2 * i)) (lane k a (S (2 * i))) /\
      lane k (xor_adjacent w k a) (S (2 * i)) = N.lxor (lane k a (2 * i)) (lane k a (S (2 * i))).
  Proof.
    intros Ha. unfold xor_adjacent.
    set (x := N.lxor (N.shiftr a (nbits k)) a).
    split; [apply lxor_inr; auto using shl_inr; apply land_inr_r, mask_even_inr|].
    intros i Hi. split.
    - rewrite lane_lxor, shl_masked_e, N.lxor_0_r by auto.
      rewrite lane_land, mask_even_e, land_lane_ones by auto. unfold x.
      rewrite lane_lxor, lane_shiftr. apply N.lxor_comm.
    - rewrite lane_lxor, lane_shl by (try lia; now apply half_lt).
      rewrite !lane_land, mask_even_e, mask_even_o, land_lane_ones, N.land_0_r, N.lxor_0_l by auto.
      unfold x. rewrite lane_lxor, lane_shiftr. apply N.lxor_comm.
  Qed.
End Masks.

(** A packed operation that acts lane by lane as the scalar operation [f]. *)
Definition lanewise1 (w k : nat) (op f : N -> N) : Prop :=
  forall a, inr w a -> inr w (op a) /\
    forall i, (i < 2 ^ (w - k))%nat -> lane k (op a) i = f (lane k a i).
Definition lanewise2 (w k : nat) (op f : N -> N -> N) : Prop :=
  forall a b, inr w a -> inr w b -> inr w (op a b) /\
    forall i, (i < 2 ^ (w - k))%nat -> lane k (op a b) i = f (lane k a i) (lane k b i).

(** The scalar formulas of level k+1 over level k (shared by binary and AES towers). *)
Definition up_alpha (k : nat) (al : N -> N) (a : N) : N :=
  join k (hi k a) (tadd (lo k a) (al (hi k a))).
Definition up_mul (k : nat) (mu : N -> N -> N) (al : N -> N) (a b : N) : N :=
  let z0 := mu (lo k a) (lo k b) in
  let z2 := mu (hi k a) (hi k b) in
  join k (tadd z0 z2)
    (tadd (tsub (mu (tadd (lo k a) (hi k a)) (tadd (lo k b) (hi k b))) (tadd z0 z2)) (al z2)).
Definition up_square (k : nat) (sq al : N -> N) (a : N) : N :=
  join k (tadd (sq (lo k a)) (sq (hi k a))) (al (sq (hi k a))).
Definition up_inv (k : nat) (mu : N -> N -> N) (sq al iv : N -> N) (a : N) : N :=
  let a0z1 := tadd (lo k a) (al (hi k a)) in
  let di := iv (tadd (mu (lo k a) a0z1) (sq (hi k a))) in
  join k (mu di a0z1) (mu di (hi k a)).

Section Steps.
  Variables w k : nat.
  Hypothesis Hk : (S k <= w)%nat.
  Variables (mu : N -> N -> N) (al sq iv : N -> N).
  Variables (pmu : N -> N -> N) (pal psq piv : N -> N).
  Hypothesis Hmu : lanewise2 w k pmu mu.
  Hypothesis Hal : lanewise1 w k pal al.
  Hypothesis Hsq : lanewise1 w k psq sq.
  Hypothesis Hiv : lanewise1 w k piv iv.

  Ltac bnd := auto; try (apply (half_lt w k); auto; fail); try (apply (half_lt' w k); auto; fail); try lia.

  Lemma packed_mul_alpha_ok : al 0 = 0 ->
    lanewise1 w (S k) (packed_mul_alpha w k pal) (up_alpha k al).
  Proof.
    intros al0 a Ha. unfold packed_mul_alpha.
    set (a0 := N.land a (mask_even w k)). set (a1 := N.land a (mask_odd w k)).
    assert (I0 : inr w a0) by now apply land_inr_l. assert (I1 : inr w a1) by now apply land_inr_l.
    destruct (Hal a1 I1) as [Iz Lz].
    split; [apply lor_inr; [now apply shiftr_inr|apply lxor_inr; auto using shl_inr]|].
    intros i Hi. rewrite lane_join. unfold up_alpha. rewrite <- lane_even, <- lane_odd.
    f_equal.
    - rewrite lane_lor, lane_lxor, lane_shiftr. unfold a0 at 1. rewrite shl_masked_e by auto.
      rewrite Lz by bnd. unfold a1. rewrite !lane_land, mask_odd_o, mask_odd_e by auto.
      rewrite N.land_0_r, al0, land_lane_ones. cbn. apply N.lor_0_r.
    - rewrite lane_lor, lane_lxor, lane_shiftr, lane_shl by bnd.
      rewrite Lz by bnd. unfold a0, a1. rewrite !lane_land, mask_odd_o, mask_even_e, !land_lane_ones by auto.
      destruct (Nat.eq_dec (S i) (2 ^ (w - S k))) as [E|E].
      + rewrite (lane_out w k a) by (auto; try lia; replace (w - k)%nat with (S (w - S k)) by lia; cbn [Nat.pow]; lia).
        rewrite N.land_0_l. reflexivity.
      + replace (S (S (2 * i))) with (2 * S i)%nat by lia.
        rewrite mask_odd_e by lia. rewrite N.land_0_r. reflexivity.
  Qed.

  Lemma packed_mul_ok : (forall x, inr k x -> mu (alpha_pat k) x = al x) ->
    lanewise2 w (S k) (packed_mul w k pmu) (up_mul k mu al).
  Proof.
    intros Hala a b Ha Hb. unfold packed_mul.
    destruct (Hmu a b Ha Hb) as [Iz Lz]. set (z02 := pmu a b) in *.
    pose proof (interleave_lanes w k Hk a b Ha Hb) as IL.
    destruct (interleave_raw w k a b) as [l h]. destruct IL as [Il [Ih IL]].
    set (az := N.lxor (alphas w k) (N.land z02 (mask_odd w k))).
    assert (Iaz : inr w az) by (apply lxor_inr; [now apply alphas_inr|now apply land_inr_l]).
    pose proof (interleave_lanes w k Hk (N.lxor l h) az (lxor_inr _ _ _ Il Ih) Iaz) as XL.
    destruct (interleave_raw w k (N.lxor l h) az) as [x y]. destruct XL as [Ix [Iy XL]].
    destruct (Hmu x y Ix Iy) as [Iq Lq]. set (q := pmu x y) in *.
    destruct (xor_adjacent_lanes w k Hk z02 Iz) as [Ia La].
    split; [apply lxor_inr; auto; apply land_inr_r, mask_odd_inr|].
    intros i Hi. rewrite lane_join. unfold up_mul. rewrite <- !lane_even, <- !lane_odd.
    specialize (IL i Hi). destruct IL as [L0 [L1 [L2 L3]]].
    specialize (XL i Hi). destruct XL as [X0 [X1 [X2 X3]]].
    specialize (La i Hi). destruct La as [A0 A1].
    assert (Zo : lane k z02 (S (2 * i)) = mu (lane k a (S (2 * i))) (lane k b (S (2 * i)))) by (apply Lz; bnd).
    assert (Ze : lane k z02 (2 * i) = mu (lane k a (2 * i)) (lane k b (2 * i))) by (apply Lz; bnd).
    f_equal.
    - rewrite lane_lxor, A0, lane_land, mask_odd_e by auto. rewrite N.land_0_r, N.lxor_0_r.
      rewrite Zo, Ze. reflexivity.
    - rewrite lane_lxor, A1, lane_land, mask_odd_o, lane_lxor, lane_shl by bnd.
      rewrite (Lq (S (2 * i))), (Lq (2 * i)%nat) by bnd.
      rewrite X0, X1, X2, X3, !lane_lxor, L0, L1, L2, L3.
      assert (Eo : lane k az (S (2 * i)) = lane k z02 (S (2 * i))).
      { unfold az. rewrite lane_lxor, alphas_o, lane_land, mask_odd_o, land_lane_ones by auto. apply N.lxor_0_l. }
      assert (Ee : lane k az (2 * i) = alpha_pat k).
      { unfold az. rewrite lane_lxor, alphas_e, lane_land, mask_odd_e by auto. rewrite N.land_0_r. apply N.lxor_0_r. }
      rewrite Eo, Ee, Hala by apply lane_inr.
      rewrite land_ones_inr.
      + rewrite Zo, Ze. unfold tadd, tsub.
        set (u := mu _ _). set (v := mu (lane k a (S _)) _).
        set (s := mu (N.lxor _ _) _). set (t := al v).
        apply N.bits_inj. intros r. rewrite !N.lxor_spec.
        destruct (N.testbit u r), (N.testbit v r), (N.testbit s r), (N.testbit t r); reflexivity.
      + apply lxor_inr.
        * rewrite <- Hala by apply lane_inr. rewrite <- Ee, <- Eo, <- X1, <- X3, <- Lq by bnd. apply lane_inr.
        * rewrite <- L0, <- L1, <- L2, <- L3, <- !lane_lxor, <- X0, <- X2, <- Lq by bnd. apply lane_inr.
  Qed.

  Lemma packed_square_ok : 
    lanewise1 w (S k) (packed_square w k psq pal) (up_square k sq al).
  Proof.
    intros a Ha. unfold packed_square.
    destruct (Hsq a Ha) as [Is Ls]. destruct (Hal _ Is) as [Il Ll].
    split; [apply lor_inr; [apply land_inr_r; now apply mask_even_inr|apply land_inr_r, mask_odd_inr]|].
    intros i Hi. rewrite lane_join. unfold up_square. rewrite <- lane_even, <- lane_odd.
    rewrite <- !Ls by bnd. rewrite <- !Ll by bnd.
    f_equal.
    - rewrite lane_lor, !lane_land, mask_even_e, mask_odd_e, land_lane_ones by auto.
      rewrite N.land_0_r, N.lor_0_r, lane_lxor, lane_shiftr. reflexivity.
    - rewrite lane_lor, !lane_land, mask_even_o, mask_odd_o, land_lane_ones by auto.
      now rewrite N.land_0_r, N.lor_0_l.
  Qed.

  Lemma packed_invert_ok : 
    lanewise1 w (S k) (packed_invert w k pmu psq pal piv) (up_inv k mu sq al iv).
  Proof.
    intros a Ha. unfold packed_invert.
    set (a1 := N.shiftr a (nbits k)). assert (I1 : inr w a1) by now apply shiftr_inr.
    destruct (Hal a1 I1) as [Il Ll].
    set (im := N.lxor a (pal a1)). assert (Im : inr w im) by now apply lxor_inr.
    destruct (Hmu a im Ha Im) as [Imu Lmu]. destruct (Hsq a1 I1) as [Isq Lsq].
    set (de := N.lxor (pmu a im) (psq a1)). assert (Ide : inr w de) by now apply lxor_inr.
    destruct (Hiv de Ide) as [Iiv Liv].
    set (dd := N.land (piv de) (mask_even w k)).
    assert (Idd : inr w dd) by now apply land_inr_l.
    set (d2 := N.lor dd (shl w dd (nbits k))).
    assert (Id2 : inr w d2) by (apply lor_inr; auto using shl_inr).
    set (ia := N.lor (N.land a (mask_odd w k)) (N.land im (mask_even w k))).
    assert (Iia : inr w ia) by (apply lor_inr; now apply land_inr_l).
    destruct (Hmu d2 ia Id2 Iia) as [Ir Lr]. split; auto.
    intros i Hi. rewrite lane_join, !Lr by bnd. unfold up_inv. rewrite <- lane_even, <- lane_odd.
    assert (Eim : lane k im (2 * i) = tadd (lane k a (2 * i)) (al (lane k a (S (2 * i))))).
    { unfold im. rewrite lane_lxor, Ll by bnd. unfold a1. rewrite lane_shiftr. reflexivity. }
    assert (Ede : lane k (piv de) (2 * i) =
      iv (tadd (mu (lane k a (2 * i)) (lane k im (2 * i))) (sq (lane k a (S (2 * i)))))).
    { rewrite Liv by bnd. unfold de. rewrite lane_lxor, Lmu, Lsq by bnd. unfold a1. now rewrite lane_shiftr. }
    assert (Ed0 : lane k d2 (2 * i) = lane k (piv de) (2 * i)).
    { unfold d2. rewrite lane_lor. unfold dd. rewrite shl_masked_e by auto.
      rewrite lane_land, mask_even_e, land_lane_ones by auto. apply N.lor_0_r. }
    assert (Ed1 : lane k d2 (S (2 * i)) = lane k (piv de) (2 * i)).
    { unfold d2. rewrite lane_lor, lane_shl by bnd. unfold dd.
      rewrite !lane_land, mask_even_e, mask_even_o, land_lane_ones by auto.
      now rewrite N.land_0_r, N.lor_0_l. }
    rewrite Ed0, Ed1, Ede, <- Eim. f_equal; f_equal; unfold ia; rewrite lane_lor, !lane_land.
    - rewrite mask_odd_e, mask_even_e, land_lane_ones by auto. now rewrite N.land_0_r, N.lor_0_l.
    - rewrite mask_odd_o, mask_even_o, land_lane_ones by auto. now rewrite N.land_0_r, N.lor_0_r.
  Qed.
End Steps.

(** from_fn puts f i in lane i. *)
Lemma from_fn_spec w k f : (k <= w)%nat -> (forall i, inr k (f i)) ->
  inr w (from_fn w k f) /\ forall i, (i < 2 ^ (w - k))%nat -> lane k (from_fn w k f) i = f i.
Proof.
  intros Hk Hf. unfold from_fn.
  assert (G : forall n s acc, inr w acc -> (s + n <= 2 ^ (w - k))%nat ->
    let r := fold_left (fun result i => N.lor result (shl w (f i) (N.of_nat i * nbits k))) (seq s n) acc in
    inr w r /\ forall i, (i < 2 ^ (w - k))%nat ->
      lane k r i = if ((s <=? i) && (i <? s + n))%nat%bool then N.lor (lane k acc i) (f i) else lane k acc i).
  { induction n; intros s acc Ha Hs; cbn [seq fold_left].
    - split; auto. intros i Hi. destruct (Nat.leb_spec s i), (Nat.ltb_spec i (s + 0)); auto; lia.
    - destruct (IHn (S s) (N.lor acc (shl w (f s) (N.of_nat s * nbits k)))) as [I L]; [|lia|].
      { apply lor_inr; auto using shl_inr. }
      split; auto. intros i Hi. rewrite L by auto. rewrite lane_lor, lane_shl_lanes by auto.
      destruct (Nat.eq_dec i s) as [->|Hn].
      + rewrite (proj2 (Nat.leb_gt (S s) s)), Nat.leb_refl by lia. cbn [andb].
        rewrite (proj2 (Nat.ltb_lt s (s + S n))) by lia.
        rewrite Nat.ltb_irrefl, Nat.sub_diag. f_equal. now apply lane_id.
      + assert (Z : (if (i <? s)%nat then 0 else lane k (f s) (i - s)) = 0).
        { destruct (Nat.ltb_spec i s); auto. apply (lane_out k k); auto.
          rewrite Nat.sub_diag. cbn. lia. }
        rewrite Z, N.lor_0_r.
        destruct (Nat.leb_spec (S s) i), (Nat.leb_spec s i), (Nat.ltb_spec i (S s + n)),
          (Nat.ltb_spec i (s + S n)); cbn [andb]; auto; lia. }
  destruct (G (2 ^ (w - k))%nat 0%nat 0 (inr_0 _)) as [I L]; [lia|].
  split; auto. intros i Hi. rewrite L by auto. cbn [Nat.leb Nat.add andb].
  rewrite (proj2 (Nat.ltb_lt _ _) Hi), lane_0. apply N.lor_0_l.
Qed.

Lemma pairwise1_ok w k f : (k <= w)%nat -> (forall x, inr k x -> inr k (f x)) ->
  lanewise1 w k (pairwise1 w k f) f.
Proof.
  intros Hk Hf a Ha. unfold pairwise1.
  apply (from_fn_spec w k (fun i => f (lane k a i))); auto using lane_inr.
Qed.
Lemma pairwise2_ok w k f : (k <= w)%nat -> (forall x y, inr k x -> inr k y -> inr k (f x y)) ->
  lanewise2 w k (pairwise2 w k f) f.
Proof.
  intros Hk Hf a b Ha Hb. unfold pairwise2.
  apply (from_fn_spec w k (fun i => f (lane k a i) (lane k b i))); auto using lane_inr.
Qed.

(** set/get. *)
Lemma set_lane_spec w k a i v : (k <= w)%nat -> (i < 2 ^ (w - k))%nat -> inr w a -> inr k v ->
  inr w (set_lane w k a i v) /\
  forall m, (m < 2 ^ (w - k))%nat -> lane k (set_lane w k a i v) m = if (m =? i)%nat then v else lane k a m.
Proof.
  intros Hk Hi Ha Hv. unfold set_lane. split.
  { apply lor_inr; auto using shl_inr, ldiff_inr. }
  intros m Hm. rewrite lane_lor.
  assert (D : forall x y, lane k (N.ldiff x y) m = N.ldiff (lane k x m) (lane k y m)).
  { intros. apply N.bits_inj. intros r. rewrite N.ldiff_spec, !lane_bit, N.ldiff_spec.
    destruct (r <? nbits k), (N.testbit x _); auto. }
  rewrite D, !lane_shl_lanes by auto.
  destruct (Nat.eqb_spec m i) as [->|Hn].
  - rewrite Nat.ltb_irrefl, Nat.sub_diag.
    rewrite (lane_id k (N.ones _)) by apply ones_inr. rewrite (lane_id k v) by auto.
    replace (N.ldiff (lane k a i) (N.ones (nbits k))) with 0; [apply N.lor_0_l|].
    symmetry. apply N.bits_inj. intros r. rewrite N.ldiff_spec, lane_bit, N.bits_0.
    destruct (N.ltb_spec r (nbits k)); auto. rewrite N.ones_spec_low by auto. apply andb_false_r.
  - assert (Z : forall x, inr k x -> (if (m <? i)%nat then 0 else lane k x (m - i)) = 0).
    { intros x Hx. destruct (Nat.ltb_spec m i); auto. apply (lane_out k k); auto.
      rewrite Nat.sub_diag. cbn. lia. }
    rewrite !Z by auto using ones_inr. now rewrite N.ldiff_0_r, N.lor_0_r.
Qed.

Lemma broadcast_spec w k s : (k <= w)%nat -> inr k s ->
  inr w (broadcast w k s) /\ forall i, (i < 2 ^ (w - k))%nat -> lane k (broadcast w k s) i = s.
Proof.
  intros Hk Hs. unfold broadcast. destruct k as [|k].
  - destruct (inr0 s Hs) as [-> | ->]; cbn [N.eqb].
    + split; [apply inr_0|]. intros; apply lane_0.
    + change (1 =? 0) with false. cbv iota. split; [apply ones_inr|]. intros i Hi.
      apply N.bits_inj. intros r. rewrite lane_bit. change (nbits 0) with 1.
      pose proof (lane_fits w 0 i Hk Hi) as F. change (nbits 0) with 1 in F.
      destruct (N.ltb_spec r 1); cbn [andb].
      * assert (r = 0) by lia. subst. rewrite N.ones_spec_low by lia. reflexivity.
      * destruct r; [lia|reflexivity].
  - destruct (rep_spec w (w - S k) (S k) s) as [I L]; auto; [lia|].
    split; auto. now replace (S k + (w - S k))%nat with w in I by lia.
Qed.
