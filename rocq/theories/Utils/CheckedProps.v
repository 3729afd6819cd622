(** C50: the checked logarithms and the checked division return the documented value on exactly the
    documented inputs, for every 64-bit unsigned integer. *)
Require Import Coq.NArith.NArith Lia.
Require Import Verif.Utils.CheckedModel.
Open Scope N_scope.

(** What the documentation says. *)
Definition usize_range (v : N) : Prop := v < 2 ^ 64.
(** [k] is the smallest natural number satisfying [P]. *)
Definition least (P : N -> Prop) (k : N) : Prop := P k /\ forall j, P j -> k <= j.

Lemma pos_ctz_spec p : exists q, Npos p = 2 ^ pos_ctz p * (2 * q + 1).
Proof.
  induction p as [p _ | p IH |].
  - exists (Npos p). cbn [pos_ctz]. rewrite N.pow_0_r. lia.
  - destruct IH as [q Hq]. exists q. cbn [pos_ctz].
    rewrite N.pow_succ_r', <- N.mul_assoc, <- Hq. reflexivity.
  - exists 0. reflexivity.
Qed.

Lemma pow2_pos k : 0 < 2 ^ k.
Proof. apply N.neq_0_lt_0, N.pow_nonzero. discriminate. Qed.

Lemma tz_lt v : v <> 0 -> usize_range v -> trailing_zeros v < usize_bits.
Proof.
  destruct v as [|p]; [easy|]. intros _ H. unfold usize_range in H. cbn [trailing_zeros].
  destruct (pos_ctz_spec p) as [q Hq].
  apply (N.pow_lt_mono_r_iff 2); [lia|].
  assert (2 ^ pos_ctz p <= Npos p) by (rewrite Hq; nia).
  unfold usize_bits. lia.
Qed.

Lemma shr_one v : v <> 0 -> usize_range v ->
  (wrapping_shr v (trailing_zeros v) = 1 <-> v = 2 ^ trailing_zeros v).
Proof.
  intros Hv Hr. pose proof (tz_lt v Hv Hr) as Ht.
  unfold wrapping_shr. rewrite N.mod_small by exact Ht.
  rewrite N.shiftr_div_pow2.
  destruct v as [|p]; [easy|]. cbn [trailing_zeros].
  destruct (pos_ctz_spec p) as [q Hq]. pose proof (pow2_pos (pos_ctz p)).
  assert (E : Npos p / 2 ^ pos_ctz p = 2 * q + 1).
  { rewrite Hq at 1. rewrite N.mul_comm. apply N.div_mul. lia. }
  rewrite E. split; intros H1.
  - replace (2 * q + 1) with 1 in Hq by lia. lia.
  - nia.
Qed.

Lemma pos_ctz_pow2 p k : Npos p = 2 ^ k -> pos_ctz p = k.
Proof.
  revert k. induction p as [p _ | p IH |]; intros k H.
  - destruct (N.eq_0_gt_0_cases k) as [->|Hk]; [rewrite N.pow_0_r in H; lia|].
    replace k with (N.succ (N.pred k)) in H by lia. rewrite N.pow_succ_r' in H. lia.
  - destruct (N.eq_0_gt_0_cases k) as [->|Hk]; [rewrite N.pow_0_r in H; lia|].
    replace k with (N.succ (N.pred k)) in * by lia. rewrite N.pow_succ_r' in H.
    cbn [pos_ctz]. f_equal. apply IH. lia.
  - cbn [pos_ctz]. destruct (N.eq_0_gt_0_cases k) as [->|Hk]; [reflexivity|].
    replace k with (N.succ (N.pred k)) in H by lia. rewrite N.pow_succ_r' in H. lia.
Qed.

Lemma tz_pow2 k : trailing_zeros (2 ^ k) = k.
Proof.
  destruct (2 ^ k) as [|p] eqn:E; [pose proof (pow2_pos k); lia|].
  cbn [trailing_zeros]. apply pos_ctz_pow2. congruence.
Qed.

(** The strict logarithm: `Some(k)` exactly on the powers 2^k, `None` on everything else. *)
Theorem strict_log_2_correct v k : usize_range v ->
  (strict_log_2 v = Some k <-> v = 2 ^ k).
Proof.
  intros Hr. unfold strict_log_2. destruct (N.eqb_spec v 0) as [->|Hv].
  - split; [discriminate|]. intros H. pose proof (pow2_pos k). lia.
  - cbv zeta. pose proof (shr_one v Hv Hr) as S.
    destruct (N.eqb_spec (wrapping_shr v (trailing_zeros v)) 1) as [E|E].
    + apply S in E. split; intros H.
      * injection H as <-. exact E.
      * subst v. now rewrite tz_pow2.
    + split; [discriminate|]. intros ->. exfalso. apply E, S. now rewrite tz_pow2.
Qed.

Theorem strict_log_2_none v : usize_range v ->
  (strict_log_2 v = None <-> ~ exists k, v = 2 ^ k).
Proof.
  intros Hr. split.
  - intros H [k Hk]. apply (strict_log_2_correct v k Hr) in Hk. congruence.
  - intros H. destruct (strict_log_2 v) as [k|] eqn:E; [|reflexivity].
    exfalso. apply H. exists k. now apply strict_log_2_correct.
Qed.

(** The panicking variants return k on 2^k and panic on exactly the other inputs. *)
Theorem checked_log_2_correct v k : usize_range v ->
  (checked_log_2 v = Some k <-> v = 2 ^ k).
Proof. exact (strict_log_2_correct v k). Qed.

Theorem log2_strict_usize_correct v k : usize_range v ->
  (log2_strict_usize v = Some k <-> v = 2 ^ k).
Proof.
  intros Hr. rewrite <- (strict_log_2_correct v k Hr). unfold strict_log_2, log2_strict_usize.
  destruct (N.eqb_spec v 0) as [->|Hv]; [|reflexivity].
  split; [|discriminate]. intros H. vm_compute in H. discriminate.
Qed.

(** The number of bits needed to represent n: the least k with n < 2^k. *)
Theorem min_bits_correct n : usize_range n -> least (fun k => n < 2 ^ k) (min_bits n).
Proof.
  unfold usize_range. intros Hr. unfold min_bits, leading_zeros.
  assert (Hs : N.size n <= usize_bits).
  { destruct (N.eq_dec n 0) as [->|Hn]; [cbn; unfold usize_bits; lia|].
    rewrite N.size_log2 by exact Hn. unfold usize_bits.
    apply N.le_succ_l. apply N.log2_lt_pow2; lia. }
  replace (usize_bits - (usize_bits - N.size n)) with (N.size n) by lia.
  split.
  - apply N.size_gt.
  - intros j Hj. destruct (N.eq_dec n 0) as [->|Hn]; [cbn; lia|].
    rewrite N.size_log2 by exact Hn. apply N.le_succ_l. apply N.log2_lt_pow2; lia.
Qed.

(** The rounded-up logarithm: the least k with n <= 2^k (0 for 0, as documented). *)
Theorem log2_ceil_correct n : usize_range n -> least (fun k => n <= 2 ^ k) (log2_ceil_usize n).
Proof.
  unfold usize_range, log2_ceil_usize, saturating_sub. intros Hr.
  assert (H1 : usize_range (n - 1)) by (unfold usize_range; lia).
  destruct (min_bits_correct _ H1) as [A B]. split.
  - lia.
  - intros j Hj. apply B. pose proof (pow2_pos j). lia.
Qed.

(** The division: defined exactly when b divides a and b is not 0, and then the exact quotient. *)
Theorem checked_int_div_correct a b q :
  checked_int_div a b = Some q <-> b <> 0 /\ a = b * q.
Proof.
  unfold checked_int_div. destruct (N.eqb_spec b 0) as [->|Hb].
  - split; [discriminate|]. intros [H _]. now destruct H.
  - cbv zeta. destruct (N.eqb_spec (b * (a / b)) a) as [E|E]; split.
    + intros H. injection H as <-. now split.
    + intros [_ H]. f_equal. subst a. rewrite N.mul_comm. now apply N.div_mul.
    + discriminate.
    + intros [_ H]. exfalso. apply E. subst a. rewrite (N.mul_comm b q) at 1.
      now rewrite N.div_mul.
Qed.

Theorem checked_int_div_panics a b :
  checked_int_div a b = None <-> b = 0 \/ ~ (b | a).
Proof.
  destruct (checked_int_div a b) as [q|] eqn:E.
  - split; [discriminate|]. apply checked_int_div_correct in E. destruct E as [Hb ->].
    intros [H|H]; [easy|]. exfalso. apply H. exists q. apply N.mul_comm.
  - split; [|reflexivity]. intros _. destruct (N.eq_dec b 0) as [H|H]; [now left|].
    right. intros [q Hq]. assert (checked_int_div a b = Some q).
    { apply checked_int_div_correct. split; [easy|]. lia. }
    congruence.
Qed.

(** Concrete cases, including both ends of the range. *)
Fact checked_ex :
  usize_range (2 ^ 64 - 1) /\ usize_range (2 ^ 63)
  /\ strict_log_2 (2 ^ 63) = Some 63 /\ strict_log_2 0 = None /\ strict_log_2 6 = None
  /\ log2_strict_usize 0 = None
  /\ log2_ceil_usize (2 ^ 64 - 1) = 64 /\ log2_ceil_usize 0 = 0 /\ log2_ceil_usize 1 = 0
  /\ log2_ceil_usize 5 = 3 /\ min_bits (2 ^ 64 - 1) = 64 /\ min_bits 8 = 4
  /\ checked_int_div 6 3 = Some 2 /\ checked_int_div 5 2 = None /\ checked_int_div 0 0 = None.
Proof. repeat split. Qed.
