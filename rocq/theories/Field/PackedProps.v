(** Packed field properties: C09 (arithmetic is lane-wise), C10 (data movement), C12 (linear
    transformations). *)
Require Import Coq.Arith.Arith Coq.NArith.NArith Coq.Lists.List Coq.Bool.Bool Lia.
Require Import Verif.Base.Fld Verif.Base.Bits Verif.Field.Quad Verif.Field.TowerModel
  Verif.Field.TowerProofs Verif.Field.TowerBases Verif.Field.TowerProps Verif.Field.AesModel
  Verif.Field.AesProofs Verif.Field.AesProps
  Verif.Field.PackedModel Verif.Field.PackedProofs.
Import ListNotations.
Local Open Scope N_scope.

(** * C09 *)

Lemma al0 k : tmul_alpha k 0 = 0.
Proof. induction k; cbn [tmul_alpha]; auto. rewrite lo_small, hi_small by apply inr_0. rewrite IHk. reflexivity. Qed.

(** For every underlier width 2^w and every scalar level k that fits, the PackedStrategy
    operations act on each lane as the scalar field operation. *)
Theorem packed_strategy_lanewise w k : (k <= w)%nat ->
  lanewise2 w k (fun a b => N.lxor a b) tadd /\
  lanewise2 w k (pmul w k) (tmul k) /\
  lanewise1 w k (psquare w k) (tsquare k) /\
  lanewise1 w k (pinvert w k) (tinv k) /\
  lanewise1 w k (pmul_alpha w k) (tmul_alpha k).
Proof.
  intros Hk. split.
  { intros a b Ha Hb. split; [now apply lxor_inr|]. intros. apply lane_lxor. }
  induction k.
  - assert (I1 : forall f, (forall a : N, f a = a) -> lanewise1 w 0 f f).
    { intros f Hf a Ha. rewrite Hf. split; auto. }
    cbn [pmul psquare pinvert pmul_alpha].
    split; [|split; [|split]].
    + intros a b Ha Hb. split; [now apply land_inr_l|]. intros. rewrite lane_land. reflexivity.
    + intros a Ha. split; auto.
    + intros a Ha. split; auto.
    + intros a Ha. split; auto.
  - destruct IHk as [Hmu [Hsq [Hiv Hal]]]; [lia|]. cbn [pmul psquare pinvert pmul_alpha].
    split; [|split; [|split]].
    + apply (packed_mul_ok w k Hk (tmul k) (tmul_alpha k) (pmul w k) Hmu).
      intros x Hx. rewrite tmul_comm by auto using alpha_pat_inr. symmetry. apply tmul_alpha_spec. auto.
    + apply (packed_square_ok w k Hk (tmul_alpha k) (tsquare k) (pmul_alpha w k) (psquare w k) Hal Hsq).
    + apply (packed_invert_ok w k Hk (tmul k) (tmul_alpha k) (tsquare k) (tinv k)
               (pmul w k) (pmul_alpha w k) (psquare w k) (pinvert w k) Hmu Hal Hsq Hiv).
    + apply (packed_mul_alpha_ok w k Hk (tmul_alpha k) (pmul_alpha w k) Hal (al0 k)).
Qed.

(** The same step is correct over any choice of strategy one level below, so mixed towers of
    strategies (as in arch/portable/packed_*.rs) are lane-wise too. *)
Theorem packed_strategy_step w k pmu psq piv pal : (S k <= w)%nat ->
  lanewise2 w k pmu (tmul k) -> lanewise1 w k psq (tsquare k) ->
  lanewise1 w k piv (tinv k) -> lanewise1 w k pal (tmul_alpha k) ->
  lanewise2 w (S k) (packed_mul w k pmu) (tmul (S k)) /\
  lanewise1 w (S k) (packed_square w k psq pal) (tsquare (S k)) /\
  lanewise1 w (S k) (packed_invert w k pmu psq pal piv) (tinv (S k)) /\
  lanewise1 w (S k) (packed_mul_alpha w k pal) (tmul_alpha (S k)).
Proof.
  intros Hk Hmu Hsq Hiv Hal. split; [|split; [|split]].
  - apply (packed_mul_ok w k Hk (tmul k) (tmul_alpha k) pmu Hmu).
    intros x Hx. rewrite tmul_comm by auto using alpha_pat_inr. symmetry. apply tmul_alpha_spec. auto.
  - apply (packed_square_ok w k Hk (tmul_alpha k) (tsquare k) pal psq Hal Hsq).
  - apply (packed_invert_ok w k Hk (tmul k) (tmul_alpha k) (tsquare k) (tinv k) pmu pal psq piv Hmu Hal Hsq Hiv).
  - apply (packed_mul_alpha_ok w k Hk (tmul_alpha k) pal Hal (al0 k)).
Qed.

Lemma sub_lane w k op f : (S k <= w)%nat -> lanewise1 w k op f -> forall a, inr w a ->
  forall i, (i < 2 ^ (w - S k))%nat ->
  lo k (lane (S k) (op a) i) = f (lo k (lane (S k) a i)) /\
  hi k (lane (S k) (op a) i) = f (hi k (lane (S k) a i)).
Proof.
  intros Hk H a Ha i Hi. destruct (H a Ha) as [_ L]. rewrite <- !lane_even, <- !lane_odd.
  split; apply L; [apply half_lt'|apply half_lt]; auto.
Qed.

(** Hybrid strategy. *)
Theorem hybrid_strategy_step w k pmu psq pal : (S k <= w)%nat ->
  lanewise2 w k pmu (tmul k) -> lanewise1 w k psq (tsquare k) -> lanewise1 w k pal (tmul_alpha k) ->
  lanewise2 w (S k) (hybrid_mul w k pmu (tmul k) (tmul_alpha k)) (tmul (S k)) /\
  lanewise1 w (S k) (hybrid_square w k psq (tmul_alpha k)) (tsquare (S k)) /\
  lanewise1 w (S k) (hybrid_mul_alpha w k pal) (tmul_alpha (S k)).
Proof.
  intros Hk Hmu Hsq Hal. split; [|split].
  - intros a b Ha Hb. unfold hybrid_mul.
    match goal with |- inr w (from_fn w (S k) ?f) /\ _ => destruct (from_fn_spec w (S k) f) as [I L] end; auto.
    { intros i. apply join_inr; repeat first [apply tadd_inr | apply tmul_inr | apply tmul_alpha_inr | apply lo_inr | apply hi_inr | apply lxor_inr]. }
    split; auto. intros i Hi. rewrite L by auto. cbn [tmul].
    destruct (Hmu a b Ha Hb) as [_ Lm].
    assert (E0 : lo k (lane (S k) (pmu a b) i) = tmul k (lo k (lane (S k) a i)) (lo k (lane (S k) b i)))
      by (rewrite <- !lane_even; apply Lm, half_lt'; auto).
    assert (E1 : hi k (lane (S k) (pmu a b) i) = tmul k (hi k (lane (S k) a i)) (hi k (lane (S k) b i)))
      by (rewrite <- !lane_odd; apply Lm, half_lt; auto).
    rewrite E0, E1. reflexivity.
  - intros a Ha. unfold hybrid_square.
    match goal with |- inr w (from_fn w (S k) ?f) /\ _ => destruct (from_fn_spec w (S k) f) as [I L] end; auto.
    { intros i. apply join_inr; auto 9 using tadd_inr, tmul_alpha_inr, lo_inr, hi_inr. }
    split; auto. intros i Hi. rewrite L by auto. cbn [tsquare].
    destruct (sub_lane w k psq (tsquare k) Hk Hsq a Ha i Hi) as [-> ->]. reflexivity.
  - intros a Ha. unfold hybrid_mul_alpha. destruct (Hal a Ha) as [_ La].
    match goal with |- inr w (from_fn w (S k) ?f) /\ _ => destruct (from_fn_spec w (S k) f) as [I L] end; auto.
    { intros i. apply join_inr; auto 9 using tadd_inr, tmul_alpha_inr, lo_inr, hi_inr, lane_inr. }
    split; auto. intros i Hi. rewrite L by auto. cbn [tmul_alpha].
    replace (2 * i + 1)%nat with (S (2 * i)) by lia. rewrite La by (apply half_lt; auto).
    rewrite lane_odd. reflexivity.
Qed.

(** Pairwise strategies (recursive or table driven scalar operation). *)
Theorem pairwise_strategy w k : (k <= w)%nat ->
  lanewise2 w k (pairwise2 w k (tmul k)) (tmul k) /\
  lanewise1 w k (pairwise1 w k (tsquare k)) (tsquare k) /\
  lanewise1 w k (pairwise1 w k (tinv k)) (tinv k) /\
  lanewise1 w k (pairwise1 w k (tmul_alpha k)) (tmul_alpha k).
Proof.
  intros Hk. split; [|split; [|split]]; [apply pairwise2_ok|apply pairwise1_ok..]; auto;
    intros; auto using tmul_inr, tsquare_inr, tinv_inr, tmul_alpha_inr.
Qed.

Lemma amul_alpha_0 d : amul_alpha d 0 = 0.
Proof.
  induction d; cbn [amul_alpha]; [vm_compute; reflexivity|].
  rewrite lo_small, hi_small by apply inr_0. rewrite IHd. reflexivity.
Qed.

(** AES tower packed fields: PackedStrategy for square and mul_alpha, pairwise for the rest. *)
Theorem packed_aes_lanewise w d : (d + 3 <= w)%nat ->
  lanewise2 w (d + 3) (pairwise2 w (d + 3) (amul d)) (amul d) /\
  lanewise1 w (d + 3) (pairwise1 w (d + 3) (asquare d)) (asquare d) /\
  lanewise1 w (d + 3) (pairwise1 w (d + 3) (ainv d)) (ainv d) /\
  lanewise1 w (d + 3) (pairwise1 w (d + 3) (amul_alpha d)) (amul_alpha d) /\
  forall psq pal, (S d + 3 <= w)%nat ->
    lanewise1 w (d + 3) psq (asquare d) -> lanewise1 w (d + 3) pal (amul_alpha d) ->
    lanewise1 w (S d + 3) (packed_square w (d + 3) psq pal) (asquare (S d)) /\
    lanewise1 w (S d + 3) (packed_mul_alpha w (d + 3) pal) (amul_alpha (S d)).
Proof.
  intros Hw. split; [|split; [|split; [|split]]].
  - apply pairwise2_ok; auto. intros. now apply amul_ok.
  - apply pairwise1_ok; auto. intros. now apply asquare_ok.
  - apply pairwise1_ok; auto. intros. now apply ainv_ok.
  - apply pairwise1_ok; auto. intros. now apply amul_alpha_ok.
  - intros psq pal Hk Hsq Hal. split.
    + apply (packed_square_ok w (d + 3) Hk (amul_alpha d) (asquare d) pal psq Hal Hsq).
    + apply (packed_mul_alpha_ok w (d + 3) Hk (amul_alpha d) pal Hal (amul_alpha_0 d)).
Qed.

(** PackedField::pow is the scalar power in each lane (all 64-bit exponents). *)
Theorem packed_pow w k mul square x e i : (k <= w)%nat ->
  lanewise2 w k mul (tmul k) -> lanewise1 w k square (tsquare k) ->
  inr w x -> e < 2 ^ 64 -> (i < 2 ^ (w - k))%nat ->
  lane k (ppow w k mul square x e) i = tpow k (lane k x i) [e].
Proof.
  intros Hk Hmu Hsq Hx He Hi. unfold ppow, tpow. cbn [rev app fold_left].
  destruct (broadcast_spec w k 1 Hk) as [Ib Lb]; [now apply inr_1|].
  specialize (Lb i Hi).
  generalize dependent (broadcast w k 1). intros r Ir Lr.
  assert (G : forall n r s, inr w r -> inr k s -> lane k r i = s ->
    inr w (ppow_bits mul square x r e n) /\
    lane k (ppow_bits mul square x r e n) i = pow_bits k (lane k x i) s e n).
  { clear r Ir Lr. induction n; intros r s Ir Is Lr; cbn [ppow_bits pow_bits]; auto.
    destruct (Hsq r Ir) as [Is2 Ls]. specialize (Ls i Hi). rewrite Lr in Ls.
    destruct (N.testbit e (N.of_nat n)).
    - destruct (Hmu (square r) x Is2 Hx) as [Im Lm]. apply IHn; auto using tmul_inr, tsquare_inr, lane_inr.
      rewrite Lm, Ls by auto. reflexivity.
    - apply IHn; auto using tsquare_inr. }
  apply G; auto. now apply inr_1.
Qed.

(** Example: 32 lanes of 4 bits in 128 bits; the operations are not trivial. *)
Example packed_ex :
  let a := 0x0123456789abcdef0123456789abcdef in let b := 0xfedcba98765432100f1e2d3c4b5a6978 in
  lane 2 (pmul 7 2 a b) 3 = tmul 2 (lane 2 a 3) (lane 2 b 3) /\ lane 2 (pmul 7 2 a b) 3 <> 0 /\
  lane 2 (pmul 7 2 a (pinvert 7 2 a)) 3 = 1 /\
  lane 2 (ppow 7 2 (pmul 7 2) (psquare 7 2) a 14) 3 = lane 2 (pinvert 7 2 a) 3 /\
  lane 4 (hybrid_mul 7 3 (pmul 7 3) (tmul 3) (tmul_alpha 3) a b) 5 = lane 4 (pmul 7 4 a b) 5.
Proof. vm_compute. repeat split; discriminate. Qed.

(** * C10: data movement.  Specifications by lane index only. *)

Theorem packed_get_set w k a i v : (k <= w)%nat -> inr w a -> inr k v ->
  ((i < 2 ^ (w - k))%nat ->
     get_checked w k a i = Some (lane k a i) /\
     exists a', set_checked w k a i v = Some a' /\ inr w a' /\
       forall m, (m < 2 ^ (w - k))%nat ->
         get_checked w k a' m = if (m =? i)%nat then Some v else get_checked w k a m) /\
  ((2 ^ (w - k) <= i)%nat -> get_checked w k a i = None /\ set_checked w k a i v = None).
Proof.
  intros Hk Ha Hv. unfold get_checked, set_checked. split; intros Hi.
  - rewrite (proj2 (Nat.ltb_lt _ _) Hi). split; auto. eexists; split; eauto.
    destruct (set_lane_spec w k a i v Hk Hi Ha Hv) as [I L]. split; auto.
    intros m Hm. rewrite (proj2 (Nat.ltb_lt _ _) Hm), L by auto. now destruct (m =? i)%nat.
  - now rewrite (proj2 (Nat.ltb_ge _ _) Hi).
Qed.

(** Two packed values with the same scalars are equal. *)
Theorem packed_extensional w k a b : (k <= w)%nat -> inr w a -> inr w b ->
  (forall i, (i < 2 ^ (w - k))%nat -> get_checked w k a i = get_checked w k b i) -> a = b.
Proof.
  intros Hk Ha Hb H. apply (lane_ext w k); auto. intros i Hi. specialize (H i Hi).
  unfold get_checked in H. rewrite (proj2 (Nat.ltb_lt _ _) Hi) in H. now inversion H.
Qed.

Theorem packed_from_fn w k f : (k <= w)%nat -> (forall i, inr k (f i)) ->
  inr w (from_fn w k f) /\ forall i, (i < 2 ^ (w - k))%nat -> lane k (from_fn w k f) i = f i.
Proof. apply from_fn_spec. Qed.

Theorem packed_broadcast w k s : (k <= w)%nat -> inr k s ->
  inr w (broadcast w k s) /\ forall i, (i < 2 ^ (w - k))%nat -> lane k (broadcast w k s) i = s.
Proof. apply broadcast_spec. Qed.

(** from_scalars fills the first lanes and leaves the others zero; surplus scalars are ignored. *)
Theorem packed_from_scalars w k values : (k <= w)%nat -> Forall (inr k) values ->
  inr w (from_scalars w k values) /\
  forall i, (i < 2 ^ (w - k))%nat -> lane k (from_scalars w k values) i = nth i values 0.
Proof.
  intros Hk Hv. unfold from_scalars.
  assert (G : forall vs s n acc, Forall (inr k) vs -> inr w acc -> (s + n = 2 ^ (w - k))%nat ->
    (forall i, (s <= i)%nat -> (i < 2 ^ (w - k))%nat -> lane k acc i = 0) ->
    let r := fold_left (fun result '(i, v) => set_lane w k result i v) (combine (seq s n) vs) acc in
    inr w r /\ forall i, (i < 2 ^ (w - k))%nat ->
      lane k r i = if (i <? s)%nat then lane k acc i else nth (i - s) vs 0).
  { induction vs as [|v vs IH]; intros s n acc Hvs Ha Hs Hz.
    - rewrite combine_nil. cbn [fold_left]. split; auto. intros i Hi. destruct (Nat.ltb_spec i s); auto.
      rewrite Hz by (auto; lia). now destruct (i - s)%nat.
    - inversion Hvs; subst. destruct n as [|n]; cbn [seq combine fold_left].
      + split; auto. intros i Hi. destruct (Nat.ltb_spec i s); auto; lia.
      + destruct (set_lane_spec w k acc s v Hk) as [I L]; auto; [lia|].
        destruct (IH (S s) n (set_lane w k acc s v)) as [I' L']; auto; [lia| |].
        { intros i Hi1 Hi2. rewrite L by auto. rewrite (proj2 (Nat.eqb_neq i s)) by lia. apply Hz; lia. }
        split; auto. intros i Hi. rewrite L' by auto.
        destruct (Nat.ltb_spec i (S s)).
        * rewrite L by auto. destruct (Nat.eqb_spec i s).
          -- subst. rewrite Nat.ltb_irrefl, Nat.sub_diag. reflexivity.
          -- rewrite (proj2 (Nat.ltb_lt i s)) by lia. reflexivity.
        * rewrite (proj2 (Nat.ltb_ge i s)) by lia. now replace (i - s)%nat with (S (i - S s)) by lia. }
  destruct (G values 0%nat (2 ^ (w - k))%nat 0) as [I L]; auto using inr_0.
  { intros. apply lane_0. }
  split; auto. intros i Hi. rewrite L by auto. cbn. now rewrite Nat.sub_0_r.
Qed.

Lemma lane_nest k n a q r : (r < 2 ^ n)%nat -> lane k (lane (n + k) a q) r = lane k a (q * 2 ^ n + r).
Proof.
  intros Hr. apply N.bits_inj. intros p. rewrite !lane_bit.
  destruct (N.ltb_spec p (nbits k)) as [L|L]; auto. cbn [andb].
  pose proof (blk_lt r n Hr). pose proof (nbits_pos k). rewrite nbits_add.
  rewrite (proj2 (N.ltb_lt _ _)) by nia. cbn [andb]. f_equal.
  rewrite Nat2N.inj_add, Nat2N.inj_mul, nbits_nat. lia.
Qed.

(** interleave with block length 2^L: the results alternate the even (resp. odd) blocks of the two
    inputs; it panics exactly when the block length is not below the width. *)
Theorem packed_interleave w k a b L : (k <= w)%nat -> inr w a -> inr w b ->
  (p_interleave w k a b L = None <-> (w - k <= L)%nat) /\
  forall c d, p_interleave w k a b L = Some (c, d) ->
    inr w c /\ inr w d /\
    forall j r, (j < 2 ^ (w - k - L - 1))%nat -> (r < 2 ^ L)%nat ->
      let even := (2 * j * 2 ^ L + r)%nat in let odd := ((2 * j + 1) * 2 ^ L + r)%nat in
      lane k c even = lane k a even /\ lane k c odd = lane k b even /\
      lane k d even = lane k a odd /\ lane k d odd = lane k b odd.
Proof.
  intros Hk Ha Hb. unfold p_interleave, u_interleave. split.
  - destruct (Nat.ltb_spec L (w - k)).
    + rewrite (proj2 (Nat.ltb_lt _ _)) by lia. split; [discriminate|lia].
    + split; auto.
  - intros c d. destruct (Nat.ltb_spec L (w - k)); [|discriminate].
    rewrite (proj2 (Nat.ltb_lt _ _)) by lia.
    assert (HK : (S (L + k) <= w)%nat) by lia.
    pose proof (interleave_lanes w (L + k) HK a b Ha Hb) as IL.
    destruct (interleave_raw w (L + k) a b) as [c' d'].
    intros E. inversion E; subst c' d'. destruct IL as [Ic [Id IL]].
    split; auto. split; auto. intros j r Hj Hr.
    destruct (IL j) as [H1 [H2 [H3 H4]]]; [replace (w - S (L + k))%nat with (w - k - L - 1)%nat by lia; auto|].
    replace (2 * j + 1)%nat with (S (2 * j)) by lia. cbv zeta.
    rewrite <- !lane_nest by auto. now rewrite H1, H2, H3, H4.
Qed.

Definition catl (w l : nat) (a b : N) (j : nat) : N :=
  if (j <? 2 ^ (w - l))%nat then lane l a j else lane l b (j - 2 ^ (w - l)).

Lemma catl_lo w l a b j : (S l <= w)%nat -> lo l (catl w (S l) a b j) = catl w l a b (2 * j).
Proof.
  intros H. unfold catl. replace (w - l)%nat with (S (w - S l)) by lia. cbn [Nat.pow].
  destruct (Nat.ltb_spec j (2 ^ (w - S l))).
  - rewrite (proj2 (Nat.ltb_lt _ _)) by lia. now rewrite lane_even.
  - rewrite (proj2 (Nat.ltb_ge _ _)) by lia. rewrite <- lane_even. f_equal. lia.
Qed.
Lemma catl_hi w l a b j : (S l <= w)%nat -> hi l (catl w (S l) a b j) = catl w l a b (S (2 * j)).
Proof.
  intros H. unfold catl. replace (w - l)%nat with (S (w - S l)) by lia. cbn [Nat.pow].
  destruct (Nat.ltb_spec j (2 ^ (w - S l))).
  - rewrite (proj2 (Nat.ltb_lt _ _)) by lia. now rewrite lane_odd.
  - rewrite (proj2 (Nat.ltb_ge _ _)) by lia. rewrite <- lane_odd. f_equal. lia.
Qed.

Lemma unzip_blocks w a b : inr w a -> inr w b -> forall n l, (l + n = w)%nat ->
  let '(c, d) := fold_left (fun '(x, y) l => interleave_raw w l x y) (rev (seq l n)) (a, b) in
  inr w c /\ inr w d /\ forall j, (j < 2 ^ n)%nat ->
    lane l c j = catl w l a b (2 * j) /\ lane l d j = catl w l a b (S (2 * j)).
Proof.
  intros Ha Hb. induction n; intros l Hl.
  - cbn. repeat split; auto; intros; assert (j = O) by (cbn in *; lia); subst; unfold catl;
      assert (Ew : (l + 0 - l = 0)%nat) by lia; rewrite Ew; reflexivity.
  - cbn [seq rev]. rewrite fold_left_app. cbn [fold_left].
    specialize (IHn (S l)). destruct (fold_left _ (rev (seq (S l) n)) (a, b)) as [c' d'].
    destruct IHn as [Ic [Id IH]]; [lia|].
    assert (HK : (S l <= w)%nat) by lia.
    pose proof (interleave_lanes w l HK c' d' Ic Id) as IL.
    destruct (interleave_raw w l c' d') as [c d]. destruct IL as [Ic2 [Id2 IL]].
    split; auto. split; auto. intros j Hj. cbn [Nat.pow] in Hj.
    destruct (parity j) as [i [-> | ->]].
    + destruct (IL i) as [H1 [H2 [H3 H4]]]; [replace (w - S l)%nat with n by lia; lia|].
      destruct (IH i) as [E1 E2]; [lia|].
      rewrite H1, H3, lane_even, lane_odd, E1, catl_lo, catl_hi by auto. auto.
    + destruct (IL i) as [H1 [H2 [H3 H4]]]; [replace (w - S l)%nat with n by lia; lia|].
      destruct (IH i) as [E1 E2]; [lia|].
      rewrite H2, H4, lane_even, lane_odd, E2, catl_lo, catl_hi by auto.
      split; f_equal; lia.
Qed.

(** unzip: concatenate the blocks of both inputs; the first result takes the even-numbered blocks,
    the second the odd-numbered ones. *)
Definition cat_lane (w k : nat) (a b : N) (i : nat) : N :=
  if (i <? 2 ^ (w - k))%nat then lane k a i else lane k b (i - 2 ^ (w - k)).

Theorem packed_unzip w k a b L : (k <= w)%nat -> inr w a -> inr w b ->
  (p_unzip w k a b L = None <-> (w - k <= L)%nat) /\
  forall c d, p_unzip w k a b L = Some (c, d) ->
    inr w c /\ inr w d /\
    forall j r, (j < 2 ^ (w - k - L))%nat -> (r < 2 ^ L)%nat ->
      lane k c (j * 2 ^ L + r) = cat_lane w k a b (2 * j * 2 ^ L + r) /\
      lane k d (j * 2 ^ L + r) = cat_lane w k a b ((2 * j + 1) * 2 ^ L + r).
Proof.
  intros Hk Ha Hb. unfold p_unzip, u_transpose. split.
  - destruct (Nat.ltb_spec L (w - k)).
    + rewrite (proj2 (Nat.ltb_lt _ _)) by lia. split; [discriminate|lia].
    + split; auto.
  - intros c d. destruct (Nat.ltb_spec L (w - k)); [|discriminate].
    rewrite (proj2 (Nat.ltb_lt _ _)) by lia.
    pose proof (unzip_blocks w a b Ha Hb (w - (L + k)) (L + k)) as U.
    destruct (fold_left _ _ (a, b)) as [c' d'].
    intros E. inversion E; subst c' d'. destruct U as [Ic [Id U]]; [lia|].
    split; auto. split; auto. intros j r Hj Hr.
    destruct (U j) as [H1 H2]; [replace (w - (L + k))%nat with (w - k - L)%nat by lia; auto|].
    assert (C : forall q, lane k (catl w (L + k) a b q) r = cat_lane w k a b (q * 2 ^ L + r)).
    { intros q. unfold catl, cat_lane.
      assert (P : (2 ^ (w - k) = 2 ^ (w - (L + k)) * 2 ^ L)%nat)
        by (rewrite <- Nat.pow_add_r; f_equal; lia).
      destruct (Nat.ltb_spec q (2 ^ (w - (L + k)))).
      - rewrite (proj2 (Nat.ltb_lt _ _)) by (rewrite P; nia). now apply lane_nest.
      - rewrite (proj2 (Nat.ltb_ge _ _)) by (rewrite P; nia). rewrite lane_nest by auto. f_equal.
        rewrite P, Nat.mul_sub_distr_r. nia. }
    rewrite <- !lane_nest by auto. rewrite H1, H2, !C. split; f_equal; lia.
Qed.

(** The doubling loop fills every run of 2^R lanes with its first lane. *)
Lemma rep_fill w k R V : (k <= w)%nat -> forall n t v, (t + n = R)%nat -> (R <= w - k)%nat ->
  inr w v ->
  (forall q r, (r < 2 ^ R)%nat -> (q * 2 ^ R + r < 2 ^ (w - k))%nat ->
     lane k v (q * 2 ^ R + r) = if (r <? 2 ^ t)%nat then V q else 0) ->
  inr w (rep w v (k + t) n) /\
  forall q r, (r < 2 ^ R)%nat -> (q * 2 ^ R + r < 2 ^ (w - k))%nat ->
    lane k (rep w v (k + t) n) (q * 2 ^ R + r) = V q.
Proof.
  intros Hk. induction n; intros t v Ht HR Hv HV; cbn [rep].
  - split; auto. intros q r Hr Hq. rewrite HV by auto. rewrite (proj2 (Nat.ltb_lt _ _)); auto.
    now replace t with R by lia.
  - replace (S (k + t)) with (k + S t)%nat by lia. apply IHn; auto; [lia|apply lor_inr; auto using shl_inr|].
    intros q r Hr Hq. rewrite lane_lor.
    replace (nbits (k + t)) with (N.of_nat (2 ^ t) * nbits k)
      by (rewrite nbits_nat, (Nat.add_comm k t), nbits_add; reflexivity).
    rewrite lane_shl_lanes, HV by auto.
    assert (PT : (2 ^ S t <= 2 ^ R)%nat) by (apply Nat.pow_le_mono_r; lia). cbn [Nat.pow] in PT |- *.
    assert (P0 : (2 ^ t <> 0)%nat) by (apply Nat.pow_nonzero; lia).
    destruct (Nat.ltb_spec r (2 ^ t)).
    + rewrite (proj2 (Nat.ltb_lt r _)) by lia.
      destruct (Nat.ltb_spec (q * 2 ^ R + r) (2 ^ t)); [apply N.lor_0_r|].
      destruct q as [|q]; [lia|].
      replace (S q * 2 ^ R + r - 2 ^ t)%nat with (q * 2 ^ R + (2 ^ R + r - 2 ^ t))%nat by lia.
      rewrite HV by lia. rewrite (proj2 (Nat.ltb_ge _ _)) by lia. apply N.lor_0_r.
    + rewrite N.lor_0_l. rewrite (proj2 (Nat.ltb_ge _ _)) by lia.
      replace (q * 2 ^ R + r - 2 ^ t)%nat with (q * 2 ^ R + (r - 2 ^ t))%nat by lia.
      rewrite HV by lia.
      destruct (Nat.ltb_spec (r - 2 ^ t) (2 ^ t)), (Nat.ltb_spec r (2 * 2 ^ t)); auto; lia.
Qed.

(** spread: block [block_idx] of 2^L scalars, each repeated so as to fill the packed value. *)
Theorem packed_spread w k a L block_idx : (k <= w)%nat -> inr w a ->
  (spread w k a L block_idx = None <-> ~ ((L <= w - k)%nat /\ (block_idx < 2 ^ (w - k - L))%nat)) /\
  forall c, spread w k a L block_idx = Some c ->
    inr w c /\ forall i, (i < 2 ^ (w - k))%nat ->
      lane k c i = lane k a (block_idx * 2 ^ L + i / 2 ^ (w - k - L)).
Proof.
  intros Hk Ha. unfold spread. split.
  { destruct (Nat.leb_spec L (w - k)), (Nat.ltb_spec block_idx (2 ^ (w - k - L))); cbn [andb];
      (split; [try discriminate; intros _ [? ?]; lia | intros X; try reflexivity; exfalso; apply X; auto]). }
  intros c. destruct (Nat.leb_spec L (w - k)) as [HL|]; [|discriminate].
  destruct (Nat.ltb_spec block_idx (2 ^ (w - k - L))) as [HB|]; [|discriminate]. cbn [andb].
  intros E. inversion E as [E']. clear E. clear E'.
  set (R := (w - k - L)%nat) in *.
  assert (P : (2 ^ (w - k) = 2 ^ L * 2 ^ R)%nat) by (rewrite <- Nat.pow_add_r; f_equal; lia).
  assert (P0 : (2 ^ R <> 0)%nat) by (apply Nat.pow_nonzero; lia).
  set (V := fun q => lane k a (block_idx * 2 ^ L + q)).
  assert (G : forall n s acc, inr w acc -> (s + n = 2 ^ L)%nat ->
    (forall q r, (r < 2 ^ R)%nat -> (q < 2 ^ L)%nat ->
      lane k acc (q * 2 ^ R + r) = if ((q <? s) && (r =? 0))%nat%bool then V q else 0) ->
    let x := fold_left (fun result i => set_lane w k result (i * 2 ^ R)
                (lane k a (block_idx * 2 ^ L + i))) (seq s n) acc in
    inr w x /\ forall q r, (r < 2 ^ R)%nat -> (q < 2 ^ L)%nat ->
      lane k x (q * 2 ^ R + r) = if (r =? 0)%nat then V q else 0).
  { induction n; intros s acc Hacc Hs HV; cbn [seq fold_left].
    - split; auto. intros q r Hr Hq. rewrite HV by auto. now rewrite (proj2 (Nat.ltb_lt _ _)) by lia.
    - destruct (set_lane_spec w k acc (s * 2 ^ R) (lane k a (block_idx * 2 ^ L + s)) Hk) as [I Ls];
        auto using lane_inr.
      { rewrite P. apply Nat.mul_lt_mono_pos_r; lia. }
      apply IHn; auto; [lia|]. intros q r Hr Hq.
      rewrite Ls by (rewrite P; nia). rewrite HV by auto.
      destruct (Nat.eqb_spec (q * 2 ^ R + r) (s * 2 ^ R)) as [Eq|Ne].
      + assert (q = s /\ r = 0)%nat as [-> ->].
        { assert (q = s) by (destruct (Nat.lt_trichotomy q s) as [|[|]]; nia). subst. lia. }
        rewrite (proj2 (Nat.ltb_lt s (S s))) by lia. reflexivity.
      + destruct (Nat.eqb_spec r 0); rewrite ?andb_false_r, ?andb_true_r; auto. subst r.
        assert (q <> s) by (intros ->; apply Ne; lia).
        destruct (Nat.ltb_spec q s), (Nat.ltb_spec q (S s)); auto; lia. }
  destruct (G (2 ^ L)%nat 0%nat 0) as [I0 L0]; auto using inr_0.
  { intros q r Hr Hq. rewrite lane_0. reflexivity. }
  set (x := fold_left _ _ 0) in *. 
  destruct (rep_fill w k R V Hk R 0 x) as [If Lf]; auto; try lia.
  { intros q r Hr Hq. rewrite L0 by (auto; rewrite P in Hq; nia).
    destruct r; reflexivity. }
  rewrite Nat.add_0_r in If, Lf. split; auto. intros i Hi.
  pose proof (Nat.div_mod i (2 ^ R) P0) as D. pose proof (Nat.mod_upper_bound i (2 ^ R) P0).
  rewrite Nat.mul_comm in D. rewrite D at 1. apply Lf; auto. now rewrite <- D.
Qed.

Example packed_move_ex :
  let a := 0x7654321076543210 in let b := 0xfedcba98fedcba98 in
  p_interleave 6 2 a b 0 = Some (0xe6c4a280e6c4a280, 0xf7d5b391f7d5b391) /\
  p_interleave 6 2 a b 1 = Some (0xdc549810dc549810, 0xfe76ba32fe76ba32) /\
  p_unzip 6 2 a b 0 = Some (0xeca8eca864206420, 0xfdb9fdb975317531) /\
  p_interleave 6 2 a b 4 = None /\
  spread 6 2 a 1 3 = Some 0x7777777766666666 /\ spread 6 2 a 1 8 = None /\
  from_scalars 6 2 [5; 6] = 0x65 /\ set_checked 6 2 a 16 3 = None.
Proof. vm_compute. repeat split. Qed.

(** * C12 *)

(** transform is additive, maps the i-th basis vector to the i-th column, and the packed
    transformation is the scalar one in every lane. *)
Theorem linear_transformation_additive bases a b :
  linear_transform bases (tadd a b) = tadd (linear_transform bases a) (linear_transform bases b).
Proof. apply linear_transform_lin. Qed.

Lemma lxor_fold_acc {A} (g : A -> N) l : forall acc,
  fold_left (fun acc x => tadd acc (g x)) l acc = tadd acc (fold_left (fun acc x => tadd acc (g x)) l 0).
Proof.
  induction l; intros acc; cbn [fold_left]; [now rewrite N.lxor_0_r|].
  rewrite IHl, (IHl (tadd 0 _)). unfold tadd. now rewrite N.lxor_0_l, N.lxor_assoc.
Qed.

(** The transformation is the one determined by its values on the basis: bit i of the input selects
    column i. *)
Theorem linear_transformation_basis bases i : (i < length bases)%nat ->
  linear_transform bases (2 ^ N.of_nat i) = nth i bases 0.
Proof.
  unfold linear_transform.
  set (g := fun p : nat * N => if N.testbit (2 ^ N.of_nat i) (N.of_nat (fst p)) then snd p else 0).
  assert (E : forall l acc, fold_left (fun acc '(j, b) =>
            tadd acc (if N.testbit (2 ^ N.of_nat i) (N.of_nat j) then b else 0)) l acc =
          fold_left (fun acc p => tadd acc (g p)) l acc).
  { induction l as [|[j b] l IH]; intros; cbn [fold_left]; auto. }
  rewrite E. clear E.
  assert (G : forall bs s, fold_left (fun acc p => tadd acc (g p)) (combine (seq s (length bs)) bs) 0 =
     if ((s <=? i) && (i <? s + length bs))%nat%bool then nth (i - s) bs 0 else 0).
  { induction bs as [|b bs IH]; intros s; cbn [seq combine fold_left length].
    - destruct (Nat.leb_spec s i), (Nat.ltb_spec i (s + 0)); auto; lia.
    - rewrite lxor_fold_acc, IH. unfold g. cbn [fst snd]. rewrite N.pow2_bits_eqb.
      destruct (N.eqb_spec (N.of_nat i) (N.of_nat s)) as [Ei|Ei].
      + assert (i = s) by lia. subst s. rewrite (proj2 (Nat.leb_gt (S i) i)), Nat.leb_refl by lia.
        cbn [andb]. rewrite (proj2 (Nat.ltb_lt _ _)) by lia. cbn [andb]. rewrite Nat.sub_diag. cbn [nth].
        unfold tadd. now rewrite N.lxor_0_l, N.lxor_0_r.
      + unfold tadd. rewrite N.lxor_0_l.
        destruct (Nat.leb_spec (S s) i), (Nat.leb_spec s i); try lia; cbn [andb]; auto.
        replace (s + S (length bs))%nat with (S s + length bs)%nat by lia.
        destruct (i <? S s + length bs)%nat; auto.
        replace (i - s)%nat with (S (i - S s)) by lia. reflexivity. }
  intros Hi. rewrite G. cbn [Nat.leb andb Nat.add].
  rewrite (proj2 (Nat.ltb_lt _ _) Hi), Nat.sub_0_r. reflexivity.
Qed.

Lemma lane0_bit a p : N.testbit (lane 0 a p) 0 = N.testbit a (N.of_nat p).
Proof. rewrite lane_bit. cbn [N.ltb]. change (nbits 0) with 1. rewrite N.mul_1_r, N.add_0_r. reflexivity. Qed.
Lemma lane0_val a p : lane 0 a p = if N.testbit a (N.of_nat p) then 1 else 0.
Proof.
  rewrite <- lane0_bit. destruct (inr0 _ (lane_inr 0 a p)) as [-> | ->]; reflexivity.
Qed.

(** The per-iteration mask: all ones in the lanes whose lowest bit is set. *)
Lemma bit_mask_lanes w k x i : (k <= w)%nat -> inr w x -> (i < 2 ^ (w - k))%nat ->
  inr w (rep w (N.land x (broadcast w k 1)) 0 k) /\
  lane k (rep w (N.land x (broadcast w k 1)) 0 k) i =
  if N.testbit x (N.of_nat i * nbits k) then N.ones (nbits k) else 0.
Proof.
  intros Hk Hx Hi.
  destruct (broadcast_spec w k 1 Hk) as [Ib Lb]; [apply inr_1|].
  assert (P : (2 ^ (w - 0) = 2 ^ (w - k) * 2 ^ k)%nat) by (rewrite <- Nat.pow_add_r; f_equal; lia).
  assert (K0 : (2 ^ k <> 0)%nat) by (apply Nat.pow_nonzero; lia).
  destruct (rep_fill w 0 k (fun q => if N.testbit x (N.of_nat q * nbits k) then 1 else 0)
              (Nat.le_0_l w) k 0 (N.land x (broadcast w k 1))) as [If Lf]; auto; try lia.
  { now apply land_inr_l. }
  { intros q r Hr Hq. rewrite lane_land.
    assert (Hqw : (q < 2 ^ (w - k))%nat) by (rewrite P in Hq; nia).
    replace (q * 2 ^ k + r)%nat with (q * 2 ^ k + r)%nat by auto.
    rewrite <- (lane_nest 0 k (broadcast w k 1)) by auto. rewrite Nat.add_0_r, Lb by auto.
    cbn [Nat.pow]. destruct r as [|r].
    - rewrite (lane0_val 1). cbn [N.testbit N.of_nat]. change (N.testbit 1 0) with true. cbv iota.
      rewrite lane0_val. rewrite Nat.add_0_r, Nat2N.inj_mul, nbits_nat.
      destruct (N.testbit _ _); reflexivity.
    - rewrite (lane0_val 1). replace (N.testbit 1 (N.of_nat (S r))) with false; [now rewrite N.land_0_r|].
      symmetry. change 1 with (2 ^ 0). rewrite N.pow2_bits_eqb. apply N.eqb_neq. lia. }
  cbn [Nat.add] in If, Lf. split; auto.
  apply N.bits_inj. intros r. rewrite lane_bit.
  destruct (N.ltb_spec r (nbits k)) as [Hr|Hr]; cbn [andb].
  - assert (Hr' : (N.to_nat r < 2 ^ k)%nat) by (rewrite <- nbits_nat in Hr; lia).
    assert (Hin : (i * 2 ^ k + N.to_nat r < 2 ^ (w - 0))%nat) by (rewrite P; nia).
    specialize (Lf i (N.to_nat r) Hr' Hin). apply (f_equal (fun z => N.testbit z 0)) in Lf.
    rewrite lane0_bit in Lf. rewrite Nat2N.inj_add, Nat2N.inj_mul, nbits_nat, N2Nat.id in Lf.
    rewrite Lf. destruct (N.testbit x _); [rewrite N.ones_spec_low by auto; reflexivity|reflexivity].
  - destruct (N.testbit x _); [rewrite N.ones_spec_high by auto; reflexivity|now rewrite N.bits_0].
Qed.

Theorem packed_linear_transformation w k bases a i : (k <= w)%nat -> inr w a ->
  Forall (inr k) bases -> (length bases <= 2 ^ k)%nat -> (i < 2 ^ (w - k))%nat ->
  lane k (packed_transform w k bases a) i = linear_transform bases (lane k a i).
Proof.
  intros Hk Ha Hb Hl Hi. unfold packed_transform, linear_transform.
  match goal with |- lane k (fst (fold_left ?f _ _)) i = _ => set (step := f) end.
  set (ln := lane k a i).
  assert (G : forall bs s res inp x, Forall (inr k) bs -> (s + length bs <= 2 ^ k)%nat ->
     inr w inp -> inp = N.shiftr a (N.of_nat s) -> lane k res i = x ->
     lane k (fst (fold_left step bs (res, inp))) i =
     fold_left (fun acc '(j, b) => tadd acc (if N.testbit ln (N.of_nat j) then b else 0))
       (combine (seq s (length bs)) bs) x).
  { induction bs as [|b bs IH]; intros s res inp x Hbs Hs Iinp Einp Ex; cbn [fold_left length seq combine]; auto.
    inversion Hbs; subst. cbn [length] in Hs. unfold step at 2. 
    apply IH; auto; try lia.
    - now apply shiftr_inr.
    - rewrite N.shiftr_shiftr. f_equal. lia.
    - rewrite lane_lxor. unfold tadd. f_equal.
      rewrite lane_land.
      destruct (bit_mask_lanes w k (N.shiftr a (N.of_nat s)) i Hk Iinp Hi) as [_ ->].
      destruct (broadcast_spec w k b Hk) as [_ Lb]; auto. rewrite Lb by auto.
      unfold ln. rewrite lane_bit.
      assert (N.of_nat s < nbits k) by (rewrite <- nbits_nat; lia).
      rewrite (proj2 (N.ltb_lt _ _) H). cbn [andb].
      rewrite N.shiftr_spec by lia.
      destruct (N.testbit a _); [rewrite N.land_comm; now apply land_ones_inr|apply N.land_0_l]. }
  rewrite (G bases 0%nat 0 a 0); auto using lane_0.
Qed.

Example linear_transformation_ex :
  linear_transform AES_TO_BINARY 0x57 = tadd (tadd 0x01 0x3c) (tadd 0x8c (tadd 0x59 0x53)) /\
  lane 3 (packed_transform 7 3 AES_TO_BINARY 0x57_0001) 2 = linear_transform AES_TO_BINARY 0x57 /\
  Forall (inr 3) AES_TO_BINARY /\ length AES_TO_BINARY = 8%nat.
Proof. split; [vm_compute; auto|]. split; [vm_compute; auto|]. split; [|reflexivity].
  repeat constructor; vm_compute; reflexivity. Qed.
