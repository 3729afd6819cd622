(** Proofs about the bit-level tower model: isomorphism with the abstract tower of quadratic
    extensions of Field/Quad.v. *)
Require Import Coq.NArith.NArith Coq.Lists.List Coq.Bool.Bool Coq.micromega.Lia Coq.Arith.PeanoNat.
Require Import Coq.setoid_ring.Ring.
Require Import Verif.Base.Fld Verif.Base.Bits Verif.Field.Quad Verif.Field.TowerModel.
Import ListNotations.
Local Open Scope N_scope.

(** In range: a is an underlier value of level k. *)
Definition inr (k : nat) (a : N) : Prop := a < 2 ^ (2 ^ N.of_nat k).

Lemma nbits_pow k : nbits k = 2 ^ N.of_nat k.
Proof. unfold nbits. now rewrite N.shiftl_1_l. Qed.

Lemma nbits_S k : nbits (S k) = nbits k + nbits k.
Proof.
  rewrite !nbits_pow, Nat2N.inj_succ, N.pow_succ_r'. lia.
Qed.

Lemma inr_nbits k a : inr k a <-> a < 2 ^ nbits k.
Proof. unfold inr. now rewrite nbits_pow. Qed.

Lemma inr_bits k a : inr k a <-> (forall i, nbits k <= i -> N.testbit a i = false).
Proof. rewrite inr_nbits. apply bits_lt. Qed.

Lemma nbits_pos k : 0 < nbits k.
Proof. rewrite nbits_pow. apply N.neq_0_lt_0, N.pow_nonzero. lia. Qed.

Lemma trunc_inr k a : inr k (trunc k a).
Proof. apply inr_nbits. apply land_ones_lt. Qed.

Lemma trunc_bit k a i : N.testbit (trunc k a) i = (N.testbit a i && (i <? nbits k))%bool.
Proof. apply testbit_land_ones. Qed.

Lemma trunc_id k a : inr k a -> trunc k a = a.
Proof.
  intros H. apply N.bits_inj. intros i. rewrite trunc_bit.
  destruct (N.ltb_spec i (nbits k)); [apply andb_true_r|].
  rewrite andb_false_r. symmetry. now apply (proj1 (inr_bits k a) H).
Qed.

Lemma lo_inr k a : inr k (lo k a).
Proof. apply trunc_inr. Qed.
Lemma hi_inr k a : inr k (hi k a).
Proof. apply trunc_inr. Qed.

Lemma tadd_inr k a b : inr k a -> inr k b -> inr k (tadd a b).
Proof. rewrite !inr_nbits. apply lxor_lt. Qed.

Lemma lo_bit k a i : N.testbit (lo k a) i = (N.testbit a i && (i <? nbits k))%bool.
Proof. apply trunc_bit. Qed.
Lemma hi_bit k a i : N.testbit (hi k a) i = (N.testbit a (i + nbits k) && (i <? nbits k))%bool.
Proof. unfold hi. now rewrite trunc_bit, testbit_shiftr. Qed.
Lemma join_bit k a b i :
  N.testbit (join k a b) i = (N.testbit a i || ((nbits k <=? i) && N.testbit b (i - nbits k)))%bool.
Proof. unfold join. now rewrite N.lor_spec, testbit_shiftl. Qed.

Lemma join_inr k a b : inr k a -> inr k b -> inr (S k) (join k a b).
Proof.
  rewrite !inr_bits. intros Ha Hb i Hi. rewrite nbits_S in Hi.
  rewrite join_bit, Ha, Hb by lia. now rewrite andb_false_r.
Qed.

Lemma lo_join k a b : inr k a -> inr k b -> lo k (join k a b) = a.
Proof.
  intros Ha Hb. apply N.bits_inj. intros i. rewrite lo_bit, join_bit.
  destruct (N.ltb_spec i (nbits k)).
  - rewrite (proj2 (N.leb_gt _ _)) by lia. simpl. now rewrite orb_false_r, andb_true_r.
  - rewrite andb_false_r. symmetry. now apply (proj1 (inr_bits k a) Ha).
Qed.

Lemma hi_join k a b : inr k a -> inr k b -> hi k (join k a b) = b.
Proof.
  intros Ha Hb. apply N.bits_inj. intros i. rewrite hi_bit, join_bit.
  rewrite (proj2 (N.leb_le _ _)) by lia. rewrite N.add_sub.
  rewrite (proj1 (inr_bits k a) Ha) by lia. simpl.
  destruct (N.ltb_spec i (nbits k)); [apply andb_true_r|].
  rewrite andb_false_r. symmetry. now apply (proj1 (inr_bits k b) Hb).
Qed.

Lemma join_lo_hi k a : inr (S k) a -> join k (lo k a) (hi k a) = a.
Proof.
  intros Ha. apply N.bits_inj. intros i. rewrite join_bit, lo_bit, hi_bit.
  destruct (N.ltb_spec i (nbits k)).
  - rewrite (proj2 (N.leb_gt _ _)) by lia. simpl. now rewrite orb_false_r, andb_true_r.
  - rewrite andb_false_r. rewrite (proj2 (N.leb_le _ _)) by lia. simpl.
    replace (i - nbits k + nbits k) with i by lia.
    destruct (N.ltb_spec (i - nbits k) (nbits k)); [apply andb_true_r|].
    rewrite andb_false_r. symmetry. apply (proj1 (inr_bits _ a) Ha). rewrite nbits_S. lia.
Qed.

Lemma lo_xor k a b : lo k (N.lxor a b) = N.lxor (lo k a) (lo k b).
Proof.
  apply N.bits_inj. intros i. rewrite N.lxor_spec, !lo_bit, N.lxor_spec.
  destruct (i <? nbits k); rewrite ?andb_true_r, ?andb_false_r; auto.
Qed.
Lemma hi_xor k a b : hi k (N.lxor a b) = N.lxor (hi k a) (hi k b).
Proof.
  apply N.bits_inj. intros i. rewrite N.lxor_spec, !hi_bit, N.lxor_spec.
  destruct (i <? nbits k); rewrite ?andb_true_r, ?andb_false_r; auto.
Qed.

Lemma join_xor k a b c d :
  inr k a -> inr k c -> N.lxor (join k a b) (join k c d) = join k (N.lxor a c) (N.lxor b d).
Proof.
  intros Ha Hc. apply N.bits_inj. intros i. rewrite N.lxor_spec, !join_bit, !N.lxor_spec.
  destruct (N.leb_spec (nbits k) i); simpl; rewrite ?orb_false_r; auto.
  rewrite (proj1 (inr_bits k a) Ha), (proj1 (inr_bits k c) Hc) by auto. reflexivity.
Qed.

Arguments lo : simpl never.
Arguments hi : simpl never.
Arguments join : simpl never.
Arguments trunc : simpl never.
Arguments nbits : simpl never.

(** The abstract field of level k and the decoding of bit patterns. *)
Definition TF (k : nat) : field := st_F (stage_at k).

Fixpoint dec (k : nat) : N -> TF k :=
  match k return N -> TF k with
  | O => fun a => N.testbit a 0
  | S k' => fun a => (dec k' (lo k' a), dec k' (hi k' a))
  end.

Fixpoint enc (k : nat) : TF k -> N :=
  match k return TF k -> N with
  | O => fun b : bool => if b then 1 else 0
  | S k' => fun x => join k' (enc k' (fst x)) (enc k' (snd x))
  end.

Lemma enc_inr k x : inr k (enc k x).
Proof.
  induction k; simpl.
  - destruct x; reflexivity.
  - now apply join_inr.
Qed.

Lemma dec_enc k x : dec k (enc k x) = x.
Proof.
  induction k; simpl.
  - destruct x; reflexivity.
  - rewrite lo_join, hi_join, !IHk by apply enc_inr. now destruct x.
Qed.

Lemma inr0 a : inr 0 a -> a = 0 \/ a = 1.
Proof. unfold inr. simpl. intros H. destruct a as [|[]]; auto; lia. Qed.

Lemma enc_dec k a : inr k a -> enc k (dec k a) = a.
Proof.
  revert a; induction k; intros a Ha.
  - destruct (inr0 a Ha); subst; reflexivity.
  - simpl. rewrite !IHk by (apply lo_inr || apply hi_inr). now apply join_lo_hi.
Qed.

Lemma dec_inj k a b : inr k a -> inr k b -> dec k a = dec k b -> a = b.
Proof. intros Ha Hb H. rewrite <- (enc_dec k a Ha), <- (enc_dec k b Hb). now rewrite H. Qed.

Lemma enc_inj k x y : enc k x = enc k y -> x = y.
Proof. intros H. rewrite <- (dec_enc k x), <- (dec_enc k y). now rewrite H. Qed.

Lemma dec_add k a b : dec k (tadd a b) = fadd (dec k a) (dec k b).
Proof.
  revert a b; induction k; intros; simpl; unfold tadd in *.
  - rewrite <- N.lxor_spec. reflexivity.
  - unfold qadd; simpl. now rewrite lo_xor, hi_xor, !IHk.
Qed.

Lemma dec_0 k : dec k 0 = f0.
Proof.
  assert (Z : forall k, trunc k 0 = 0) by (intros; unfold trunc; apply N.land_0_l).
  induction k; simpl; auto. unfold lo, hi. rewrite N.shiftr_0_l, Z, IHk. reflexivity.
Qed.

Lemma inr_1 k : inr k 1.
Proof. apply inr_nbits. assert (P := nbits_pos k). apply N.pow_gt_1; lia. Qed.
Lemma inr_0 k : inr k 0.
Proof. apply inr_nbits. apply N.neq_0_lt_0, N.pow_nonzero; lia. Qed.

Lemma inr_S k a : inr k a -> inr (S k) a.
Proof. rewrite !inr_bits, nbits_S. intros H i Hi. apply H. lia. Qed.

Lemma inr_le j k a : (j <= k)%nat -> inr j a -> inr k a.
Proof. induction 1; auto. intros. now apply inr_S, IHle. Qed.

Lemma lo_small k a : inr k a -> lo k a = a.
Proof. apply trunc_id. Qed.
Lemma hi_small k a : inr k a -> hi k a = 0.
Proof.
  intros H. apply N.bits_inj. intros i. rewrite hi_bit, N.bits_0.
  rewrite (proj1 (inr_bits k a) H) by lia. reflexivity.
Qed.

Lemma dec_1 k : dec k 1 = f1.
Proof.
  induction k; simpl; auto.
  rewrite lo_small, hi_small by apply inr_1. rewrite IHk, dec_0. reflexivity.
Qed.

Lemma dec_eq0 k a : inr k a -> (dec k a = f0 <-> a = 0).
Proof.
  intros H. split.
  - intros E. apply (dec_inj k); auto. apply inr_0. now rewrite dec_0.
  - intros ->. apply dec_0.
Qed.

(** alpha of the level, as a bit pattern: 1 at level 0, bit 2^(k-1) above. *)
Definition alpha_pat (k : nat) : N := match k with O => 1 | S k' => join k' 0 1 end.

Lemma alpha_pat_inr k : inr k (alpha_pat k).
Proof. destruct k; simpl; [apply inr_1|]. apply join_inr; [apply inr_0|apply inr_1]. Qed.

Lemma dec_alpha k : dec k (alpha_pat k) = st_a (stage_at k).
Proof.
  destruct k; simpl; auto. rewrite lo_join, hi_join by (apply inr_0 || apply inr_1).
  now rewrite dec_0, dec_1.
Qed.

(** Algebraic identities used below, in any field of characteristic two. *)
Section Alg.
  Variable F : field.
  Hypothesis H2 : char2 F.
  Local Open Scope fld_scope.
  Add Ring R1 : (f_ring F) (morphism (char2_morph F H2), constants [fcst]).
  Lemma alg_alpha0 (x y : F) (al : F) : y = x * 0 + y * 1.
  Proof. ring. Qed.
  Lemma alg_alpha1 (x y : F) (al : F) : x + y * al = x * 1 + y * 0 + y * 1 * al.
  Proof. ring. Qed.
  Lemma alg_kara (a0 a1 b0 b1 al : F) :
    ((a0 + a1) * (b0 + b1) + (a0 * b0 + a1 * b1)) + a1 * b1 * al
    = a0 * b1 + a1 * b0 + a1 * b1 * al.
  Proof. ring. Qed.
  Lemma alg_sq (a0 a1 al : F) :
    a1 * a1 * al = a0 * a1 + a1 * a0 + a1 * a1 * al.
  Proof. ring. Qed.
  Lemma alg_norm (a0 a1 al : F) :
    a0 * (a0 + a1 * al) + a1 * a1 = a0 * a0 + al * a0 * a1 + a1 * a1.
  Proof. ring. Qed.
  Lemma alg_conj (a0 a1 al : F) : a0 + a1 * al = a0 + al * a1.
  Proof. ring. Qed.
End Alg.

Lemma tmul_alpha_inr k a : inr k a -> inr k (tmul_alpha k a).
Proof.
  revert a; induction k; intros; simpl; auto.
  apply join_inr; [apply hi_inr|]. apply tadd_inr; [apply lo_inr|]. apply IHk, hi_inr.
Qed.

Lemma dec_mul_alpha k a : inr k a -> dec k (tmul_alpha k a) = fmul (dec k a) (st_a (stage_at k)).
Proof.
  revert a; induction k; intros a Ha.
  - simpl. now rewrite andb_true_r.
  - pose proof (lo_inr k a) as Hl. pose proof (hi_inr k a) as Hh.
    cbn [tmul_alpha]. pose proof (tmul_alpha_inr k _ Hh) as Hma.
    simpl dec. rewrite lo_join, hi_join by (auto; now apply tadd_inr).
    rewrite dec_add, IHk by auto. simpl. unfold qmul, qX; simpl.
    f_equal; [eapply alg_alpha0; eauto | apply alg_alpha1, st_2]. apply st_2. exact (dec k 0).
Qed.

Lemma tmul_inr k a b : inr k a -> inr k b -> inr k (tmul k a b).
Proof.
  revert a b; induction k; intros a b Ha Hb; cbn [tmul].
  - apply inr_nbits. apply land_lt_l. now apply inr_nbits.
  - pose proof (lo_inr k a). pose proof (hi_inr k a). pose proof (lo_inr k b). pose proof (hi_inr k b).
    unfold tsub. apply join_inr; repeat (apply tadd_inr || apply tmul_alpha_inr || apply IHk); auto.
Qed.

Lemma dec_mul k a b : inr k a -> inr k b -> dec k (tmul k a b) = fmul (dec k a) (dec k b).
Proof.
  revert a b; induction k; intros a b Ha Hb; cbn [tmul].
  - simpl. now rewrite N.land_spec.
  - pose proof (lo_inr k a). pose proof (hi_inr k a). pose proof (lo_inr k b). pose proof (hi_inr k b).
    change tsub with tadd.
    simpl dec. rewrite lo_join, hi_join
      by (repeat (apply tadd_inr || apply tmul_alpha_inr || apply tmul_inr); auto).
    rewrite !dec_add, dec_mul_alpha by (now apply tmul_inr).
    rewrite !IHk by (auto; now apply tadd_inr). rewrite !dec_add.
    simpl. unfold qmul; simpl. f_equal. apply alg_kara, st_2.
Qed.

Lemma tsquare_inr k a : inr k a -> inr k (tsquare k a).
Proof.
  revert a; induction k; intros a Ha; cbn [tsquare]; auto.
  pose proof (lo_inr k a). pose proof (hi_inr k a).
  apply join_inr; repeat (apply tadd_inr || apply tmul_alpha_inr || apply IHk); auto.
Qed.

Lemma dec_square k a : inr k a -> dec k (tsquare k a) = fmul (dec k a) (dec k a).
Proof.
  revert a; induction k; intros a Ha; cbn [tsquare].
  - simpl. now destruct (N.testbit a 0).
  - pose proof (lo_inr k a). pose proof (hi_inr k a).
    simpl dec. rewrite lo_join, hi_join
      by (repeat (apply tadd_inr || apply tmul_alpha_inr || apply tsquare_inr); auto).
    rewrite !dec_add, dec_mul_alpha by (now apply tsquare_inr). rewrite !IHk by auto.
    simpl. unfold qmul; simpl. f_equal. apply alg_sq, st_2.
Qed.

Lemma tinv_inr k a : inr k a -> inr k (tinv k a).
Proof.
  revert a; induction k; intros a Ha; cbn [tinv]; auto.
  pose proof (lo_inr k a). pose proof (hi_inr k a).
  apply join_inr; repeat (apply tadd_inr || apply tmul_alpha_inr || apply tmul_inr
                          || apply tsquare_inr || apply IHk); auto.
Qed.

Lemma dec_inv k a : inr k a -> dec k (tinv k a) = finv (dec k a).
Proof.
  revert a; induction k; intros a Ha; cbn [tinv].
  - reflexivity.
  - pose proof (lo_inr k a) as Hl. pose proof (hi_inr k a) as Hh.
    assert (Hz : inr k (tadd (lo k a) (tmul_alpha k (hi k a))))
      by (apply tadd_inr; auto; now apply tmul_alpha_inr).
    assert (Hd : inr k (tadd (tmul k (lo k a) (tadd (lo k a) (tmul_alpha k (hi k a)))) (tsquare k (hi k a))))
      by (apply tadd_inr; [now apply tmul_inr | now apply tsquare_inr]).
    simpl dec. rewrite lo_join, hi_join by (apply tmul_inr; auto; now apply tinv_inr).
    rewrite !dec_mul by (auto; now apply tinv_inr). rewrite IHk by auto.
    rewrite !dec_add, dec_mul, dec_square by auto.
    rewrite !dec_add, dec_mul_alpha by auto.
    simpl. unfold qinv; simpl. unfold qnorm; simpl.
    rewrite (alg_norm (TF k) (st_2 (stage_at k))).
    f_equal. f_equal. apply alg_conj, st_2.
Qed.

(** Powers with binary exponents in an arbitrary field. *)
Section NPow.
  Variable F : field.
  Local Open Scope fld_scope.
  Add Ring R2 : (f_ring F).
  Definition npow (x : F) (e : N) : F := N.iter e (fmul x) 1.
  Lemma npow_0 x : npow x 0%N = 1.
  Proof. reflexivity. Qed.
  Lemma npow_succ x e : npow x (N.succ e) = x * npow x e.
  Proof. unfold npow. apply N.iter_succ. Qed.
  Lemma npow_add x e d : npow x (e + d)%N = npow x e * npow x d.
  Proof.
    induction e using N.peano_ind.
    - rewrite npow_0. simpl. ring.
    - rewrite N.add_succ_l, !npow_succ, IHe. ring.
  Qed.
  Lemma npow_double x e : npow x (2 * e)%N = npow x e * npow x e.
  Proof. replace (2 * e)%N with (e + e)%N by lia. apply npow_add. Qed.
  Lemma npow_double_sq x e : npow x (2 * e)%N = npow (x * x) e.
  Proof.
    induction e using N.peano_ind.
    - reflexivity.
    - replace (2 * N.succ e)%N with (N.succ (N.succ (2 * e))) by lia.
      rewrite !npow_succ, IHe. ring.
  Qed.
  Lemma npow_of_nat x n : npow x (N.of_nat n) = fpow x n.
  Proof.
    induction n; [reflexivity|]. rewrite Nat2N.inj_succ, npow_succ, IHn. reflexivity.
  Qed.
  Lemma npow_mul_l (x y : F) n : npow (x * y) n = npow x n * npow y n.
  Proof.
    induction n using N.peano_ind; [rewrite !npow_0; ring|]. rewrite !npow_succ, IHn. ring.
  Qed.
  Lemma npow_mul x n m : npow x (n * m)%N = npow (npow x m) n.
  Proof.
    induction n using N.peano_ind; [reflexivity|].
    rewrite N.mul_succ_l, N.add_comm, npow_add, npow_succ, IHn. ring.
  Qed.
  Lemma npow_1_l n : npow 1 n = 1.
  Proof. induction n using N.peano_ind; auto. rewrite npow_succ, IHn. ring. Qed.
  Lemma iter_sq_npow n x : iter_sq F n x = npow x (2 ^ N.of_nat n)%N.
  Proof.
    revert x; induction n; intros; simpl iter_sq.
    - cbn. ring.
    - rewrite IHn, Nat2N.inj_succ, N.pow_succ_r', <- npow_double_sq. reflexivity.
  Qed.
End NPow.

Lemma testbit_mod_succ e i :
  e mod 2 ^ (N.succ i) = e mod 2 ^ i + (if N.testbit e i then 2 ^ i else 0).
Proof.
  rewrite <- !N.land_ones.
  assert (D : N.land (N.land e (N.ones i)) (if N.testbit e i then 2 ^ i else 0) = 0).
  { apply N.bits_inj. intros j. rewrite N.land_spec, testbit_land_ones, N.bits_0.
    destruct (N.testbit e i); [rewrite testbit_pow2|rewrite N.bits_0; apply andb_false_r].
    destruct (N.eqb_spec i j); [subst; rewrite N.ltb_irrefl, andb_false_r|]; auto.
    apply andb_false_r. }
  rewrite N.add_nocarry_lxor by exact D.
  apply N.bits_inj. intros j. rewrite N.lxor_spec, !testbit_land_ones.
  destruct (N.testbit e i) eqn:E.
  - rewrite testbit_pow2. destruct (N.eqb_spec i j).
    + subst. rewrite N.ltb_irrefl, E, (proj2 (N.ltb_lt _ _)) by lia. reflexivity.
    + rewrite xorb_false_r. f_equal. destruct (N.ltb_spec j i), (N.ltb_spec j (N.succ i)); auto; lia.
  - rewrite N.bits_0, xorb_false_r.
    destruct (N.eq_dec i j); [subst; now rewrite E|].
    f_equal. destruct (N.ltb_spec j i), (N.ltb_spec j (N.succ i)); auto; lia.
Qed.

Section PowProof.
  Variable k : nat.
  Variable x : N.
  Hypothesis Hx : inr k x.
  Local Notation F := (TF k).
  Local Open Scope fld_scope.
  Add Ring R3 : (f_ring (TF k)).

  Lemma pow_bits_inr res e i : inr k res -> inr k (pow_bits k x res e i).
  Proof.
    revert res; induction i; intros res H; simpl; auto. apply IHi.
    destruct (N.testbit _ _); auto using tmul_inr, tsquare_inr.
  Qed.

  Lemma dec_pow_bits res e i : inr k res ->
    dec k (pow_bits k x res e i) =
    npow F (dec k res) (2 ^ N.of_nat i)%N * npow F (dec k x) (e mod 2 ^ N.of_nat i)%N.
  Proof.
    revert res; induction i; intros res H.
    - simpl pow_bits. rewrite N.mod_1_r. cbn. change (dec k res = dec k res * 1 * 1). ring.
    - simpl pow_bits. rewrite IHi by (destruct (N.testbit _ _); auto using tmul_inr, tsquare_inr).
      rewrite Nat2N.inj_succ, testbit_mod_succ, npow_add, N.pow_succ_r'.
      rewrite (npow_double_sq F (dec k res)).
      destruct (N.testbit e (N.of_nat i)).
      + rewrite dec_mul, dec_square by auto using tsquare_inr.
        rewrite !npow_mul_l. ring.
      + rewrite dec_square by auto. rewrite npow_0. ring.
  Qed.

  (** Value of a little-endian list of 64-bit limbs. *)
  Fixpoint limbs (l : list N) : N := match l with [] => 0 | e :: l => (e + 2 ^ 64 * limbs l)%N end.

  Lemma tpow_inr l : inr k (tpow k x l).
  Proof.
    unfold tpow. rewrite <- fold_left_rev_right, rev_involutive.
    induction l; cbn [fold_right]; [apply inr_1|]. now apply pow_bits_inr.
  Qed.

  Lemma dec_tpow l : Forall (fun e => (e < 2 ^ 64)%N) l ->
    dec k (tpow k x l) = npow F (dec k x) (limbs l).
  Proof.
    unfold tpow. rewrite <- fold_left_rev_right, rev_involutive.
    induction l; intros H; [apply dec_1|].
    inversion H; subst. cbn [fold_right].
    assert (G : inr k (fold_right (fun y x0 => pow_bits k x x0 y 64) 1%N l)).
    { clear IHl. induction l; [apply inr_1|]. cbn [fold_right]. apply pow_bits_inr.
      inversion H; subst. inversion H3; subst. apply IHl; auto. }
    rewrite dec_pow_bits by exact G. rewrite IHl by auto.
    change (2 ^ N.of_nat 64)%N with (2 ^ 64)%N. rewrite <- npow_mul.
    change (limbs (a :: l)) with (a + 2 ^ 64 * limbs l)%N.
    rewrite N.mod_small by auto. rewrite npow_add. ring.
  Qed.
End PowProof.

(** Embedding of level j into level k. *)
Lemma dec_small k a : inr k a -> dec (S k) a = emb (stage_at k) (dec k a).
Proof. intros H. simpl. rewrite lo_small, hi_small, dec_0 by auto. reflexivity. Qed.

Lemma emb_fmul S (a b : st_F S) : emb S (fmul a b) = fmul (emb S a) (emb S b).
Proof.
  unfold emb; simpl. unfold qmul; simpl.
  pose proof (f_ring (st_F S)) as R.
  assert (M0 : forall x : st_F S, fmul x f0 = f0).
  { intros. rewrite (Rmul_comm R). apply (ARmul_0_l (Rth_ARth (Eqsth _) (Eq_ext _ _ _) R)). }
  assert (M0' : forall x : st_F S, fmul f0 x = f0) by (intros; rewrite (Rmul_comm R); apply M0).
  rewrite !M0, !M0', (Radd_comm R _ f0), !(Radd_0_l R). reflexivity.
Qed.

Lemma tmul_small_S k a b : inr k a -> inr k b -> tmul (S k) a b = tmul k a b.
Proof.
  intros Ha Hb. apply (dec_inj (S k)).
  - apply tmul_inr; now apply inr_S.
  - apply inr_S. now apply tmul_inr.
  - rewrite dec_mul by now apply inr_S.
    rewrite !dec_small, dec_mul by auto using tmul_inr. symmetry. apply emb_fmul.
Qed.

Lemma tmul_small j k a b : (j <= k)%nat -> inr j a -> inr j b -> tmul k a b = tmul j a b.
Proof.
  induction 1; intros Ha Hb; auto.
  rewrite tmul_small_S; auto; now apply (inr_le j).
Qed.

Lemma ttry_from_spec j a : ttry_from j a = if a <? 2 ^ (2 ^ N.of_nat j) then Some a else None.
Proof.
  unfold ttry_from. destruct (N.ltb_spec a (2 ^ 2 ^ N.of_nat j)) as [L|L].
  - assert (H : inr j a) by exact L.
    rewrite trunc_id by auto.
    replace (N.shiftr a (nbits j)) with 0; [reflexivity|].
    apply N.bits_inj. intros i. rewrite N.bits_0, testbit_shiftr. symmetry.
    apply (proj1 (inr_bits j a) H). lia.
  - destruct (N.eqb_spec (N.shiftr a (nbits j)) 0) as [E|E]; auto. exfalso.
    assert (inr j a); [|unfold inr in *; lia]. apply inr_bits. intros i Hi.
    replace i with (i - nbits j + nbits j) by lia. rewrite <- testbit_shiftr, E. apply N.bits_0.
Qed.

(** Multiplication by a subfield element acts on halves. *)
Lemma tmul_sub_halves k a r : inr (S k) a -> inr k r ->
  tmul (S k) a r = join k (tmul k (lo k a) r) (tmul k (hi k a) r).
Proof.
  intros Ha Hr.
  apply (dec_inj (S k)).
  - apply tmul_inr; auto. now apply inr_S.
  - apply join_inr; apply tmul_inr; auto using lo_inr, hi_inr.
  - rewrite dec_mul by auto using inr_S.
    rewrite (dec_small k r) by auto. simpl dec.
    rewrite lo_join, hi_join by auto using tmul_inr, lo_inr, hi_inr.
    rewrite !dec_mul by auto using lo_inr, hi_inr.
    simpl. unfold qmul, emb; simpl.
    set (S' := stage_at k). pose proof (f_ring (st_F S')) as R.
    assert (M0 : forall x : st_F S', fmul x f0 = f0).
    { intros. rewrite (Rmul_comm R). apply (ARmul_0_l (Rth_ARth (Eqsth _) (Eq_ext _ _ _) R)). }
    assert (M0' : forall x : st_F S', fmul f0 x = f0) by (intros; rewrite (Rmul_comm R); apply M0).
    fold S'. rewrite !M0, !M0'. rewrite (Radd_comm R _ f0), (Radd_comm R _ f0), !(Radd_0_l R).
    reflexivity.
Qed.

Lemma tmul_sub_spec d j a r : inr (d + j) a -> inr j r -> tmul_sub d j a r = tmul (d + j) a r.
Proof.
  revert a; induction d; intros a Ha Hr; cbn [tmul_sub Nat.add]; auto.
  rewrite !IHd by auto using lo_inr, hi_inr. symmetry. apply tmul_sub_halves; auto.
  apply (inr_le j); auto; lia.
Qed.

(** Ring laws transported to bit patterns. *)
Section Laws.
  Variable k : nat.
  Local Notation "a *' b" := (tmul k a b) (at level 40, left associativity).
  Local Notation "a +' b" := (tadd a b) (at level 50, left associativity).
  Let R := f_ring (TF k).
  Ltac side := repeat (apply tmul_inr || apply tadd_inr || apply inr_0 || apply inr_1); auto.
  Ltac lift := intros; apply (dec_inj k); [side | side |];
    repeat ((rewrite dec_mul by side) || rewrite dec_add || rewrite dec_0 || rewrite dec_1).

  Lemma tmul_comm a b : inr k a -> inr k b -> a *' b = b *' a.
  Proof. lift. apply (Rmul_comm R). Qed.
  Lemma tmul_assoc a b c : inr k a -> inr k b -> inr k c -> a *' (b *' c) = (a *' b) *' c.
  Proof. lift. apply (Rmul_assoc R). Qed.
  Lemma tmul_distr a b c : inr k a -> inr k b -> inr k c -> (a +' b) *' c = a *' c +' b *' c.
  Proof. lift. apply (Rdistr_l R). Qed.
  Lemma tmul_1_l a : inr k a -> 1 *' a = a.
  Proof. lift. apply (Rmul_1_l R). Qed.
  Lemma tmul_0_l a : inr k a -> 0 *' a = 0.
  Proof. lift. apply (ARmul_0_l (Rth_ARth (Eqsth _) (Eq_ext _ _ _) R)). Qed.
  Lemma tinv_mul a : inr k a -> a <> 0 -> a *' tinv k a = 1.
  Proof.
    intros Ha Hn. apply (dec_inj k); auto using tmul_inr, tinv_inr, inr_1.
    rewrite dec_mul, dec_inv, dec_1 by auto using tinv_inr.
    apply f_inv_r. rewrite dec_eq0; auto.
  Qed.
  Lemma tinv_0 : tinv k 0 = 0.
  Proof.
    apply (dec_inj k); auto using tinv_inr, inr_0.
    rewrite dec_inv, dec_0 by apply inr_0. apply f_inv_0.
  Qed.
  Lemma tsquare_spec a : inr k a -> tsquare k a = a *' a.
  Proof.
    intros. apply (dec_inj k); auto using tmul_inr, tsquare_inr.
    rewrite dec_square, dec_mul by auto. reflexivity.
  Qed.
  Lemma tmul_alpha_spec a : inr k a -> tmul_alpha k a = a *' alpha_pat k.
  Proof.
    intros. apply (dec_inj k); auto using tmul_inr, tmul_alpha_inr, alpha_pat_inr.
    rewrite dec_mul_alpha, dec_mul, dec_alpha by auto using alpha_pat_inr. reflexivity.
  Qed.
End Laws.

Lemma alpha_pat_val k : alpha_pat (S k) = 2 ^ 2 ^ N.of_nat k.
Proof.
  unfold alpha_pat, join. rewrite N.lor_0_l, nbits_pow. apply N.shiftl_1_l.
Qed.
