(** Bits of natural numbers written in mixed radix, and shifts as multiplications. *)
Require Import Coq.Arith.Arith Coq.Bool.Bool Lia.

Lemma pow2_pos n : 0 < 2 ^ n.
Proof. induction n; cbn; lia. Qed.

Lemma pow2_S n : 2 ^ S n = 2 ^ n + 2 ^ n.
Proof. cbn. lia. Qed.

Lemma pow2_le a b : a <= b -> 2 ^ a <= 2 ^ b.
Proof. intros. apply Nat.pow_le_mono_r; lia. Qed.

Lemma pow2_lt a b : a < b -> 2 ^ a < 2 ^ b.
Proof. intros. apply Nat.pow_lt_mono_r; lia. Qed.

Lemma pow2_lt_inv a b : 2 ^ a < 2 ^ b -> a < b.
Proof. intros. destruct (Nat.lt_ge_cases a b); auto. pose proof (pow2_le b a). lia. Qed.

Lemma pow2_le_inv a b : 2 ^ a <= 2 ^ b -> a <= b.
Proof. intros. destruct (Nat.le_gt_cases a b); auto. pose proof (pow2_lt b a). lia. Qed.

Lemma pow2_inj a b : 2 ^ a = 2 ^ b -> a = b.
Proof. intros. apply Nat.le_antisymm; apply pow2_le_inv; lia. Qed.

Lemma shl_mul a n : Nat.shiftl a n = a * 2 ^ n.
Proof. apply Nat.shiftl_mul_pow2. Qed.

Lemma shr_div a n : Nat.shiftr a n = a / 2 ^ n.
Proof. apply Nat.shiftr_div_pow2. Qed.

(** [q * 2^n + r] with [r < 2^n]. *)
Lemma mix_div q r n : r < 2 ^ n -> (q * 2 ^ n + r) / 2 ^ n = q.
Proof. intros. pose proof (pow2_pos n). rewrite Nat.div_add_l by lia. rewrite Nat.div_small; lia. Qed.

Lemma mix_mod q r n : r < 2 ^ n -> (q * 2 ^ n + r) mod 2 ^ n = r.
Proof.
  intros. pose proof (pow2_pos n). rewrite Nat.add_comm, Nat.mod_add by lia. now apply Nat.mod_small.
Qed.

Lemma mix_bit_lo q r n i : r < 2 ^ n -> i < n -> Nat.testbit (q * 2 ^ n + r) i = Nat.testbit r i.
Proof. intros. rewrite <- (Nat.mod_pow2_bits_low _ n) by auto. now rewrite mix_mod. Qed.

Lemma mix_bit_hi q r n i : r < 2 ^ n -> n <= i ->
  Nat.testbit (q * 2 ^ n + r) i = Nat.testbit q (i - n).
Proof.
  intros. replace i with ((i - n) + n) at 1 by lia. rewrite <- Nat.div_pow2_bits. now rewrite mix_div.
Qed.

Lemma bit_above r n i : r < 2 ^ n -> n <= i -> Nat.testbit r i = false.
Proof. intros. change r with (0 * 2 ^ n + r). rewrite mix_bit_hi by auto. apply Nat.bits_0. Qed.

Lemma mix_lt q r n k : q < 2 ^ k -> r < 2 ^ n -> q * 2 ^ n + r < 2 ^ (n + k).
Proof. intros. rewrite Nat.pow_add_r. nia. Qed.

Lemma mix_dm x n : x = x / 2 ^ n * 2 ^ n + x mod 2 ^ n.
Proof. pose proof (pow2_pos n). rewrite Nat.mul_comm. apply Nat.div_mod. lia. Qed.

Lemma mod_lt x n : x mod 2 ^ n < 2 ^ n.
Proof. apply Nat.mod_upper_bound. pose proof (pow2_pos n). lia. Qed.

Lemma div_lt x n k : x < 2 ^ (n + k) -> x / 2 ^ n < 2 ^ k.
Proof.
  intros. apply Nat.div_lt_upper_bound; [pose proof (pow2_pos n); lia|]. now rewrite <- Nat.pow_add_r.
Qed.

Lemma div_div x a b : x / 2 ^ a / 2 ^ b = x / 2 ^ (a + b).
Proof.
  pose proof (pow2_pos a). pose proof (pow2_pos b). rewrite Nat.div_div, <- Nat.pow_add_r by lia. reflexivity.
Qed.

(** The low [S n] bits of [x], split at bit [n]. *)
Lemma mod_S x n : x mod 2 ^ S n = (if Nat.testbit x n then 2 ^ n else 0) + x mod 2 ^ n.
Proof.
  pose proof (pow2_pos n). rewrite Nat.testbit_eqb.
  replace (2 ^ S n) with (2 ^ n * 2) by (cbn; lia). rewrite Nat.mod_mul_r by lia.
  pose proof (Nat.mod_upper_bound (x / 2 ^ n) 2).
  destruct (Nat.eqb_spec ((x / 2 ^ n) mod 2) 1); nia.
Qed.

(** [x] split into the bits above [n], bit [n] and the bits below. *)
Lemma split_bit x n : x = x / 2 ^ S n * 2 ^ S n + (if Nat.testbit x n then 2 ^ n else 0) + x mod 2 ^ n.
Proof. rewrite <- Nat.add_assoc, <- mod_S. apply mix_dm. Qed.

Lemma bit_set q n r : r < 2 ^ n -> Nat.testbit (q * 2 ^ S n + 2 ^ n + r) n = true.
Proof.
  intros. replace (q * 2 ^ S n + 2 ^ n + r) with ((2 * q + 1) * 2 ^ n + r) by (rewrite pow2_S; lia).
  rewrite mix_bit_hi, Nat.sub_diag by auto. apply Nat.testbit_odd_0.
Qed.

Lemma bit_clear q n r : r < 2 ^ n -> Nat.testbit (q * 2 ^ S n + r) n = false.
Proof.
  intros. replace (q * 2 ^ S n + r) with ((2 * q) * 2 ^ n + r) by (rewrite pow2_S; lia).
  rewrite mix_bit_hi, Nat.sub_diag by auto. apply Nat.testbit_even_0.
Qed.

Lemma mix_mod_lo q r n k : k <= n -> (q * 2 ^ n + r) mod 2 ^ k = r mod 2 ^ k.
Proof.
  intros. pose proof (pow2_pos k). replace n with ((n - k) + k) by lia.
  rewrite Nat.pow_add_r, Nat.mul_assoc, Nat.add_comm. apply Nat.mod_add. lia.
Qed.

Lemma mix_div_hi q r n k : r < 2 ^ n -> n <= k -> (q * 2 ^ n + r) / 2 ^ k = q / 2 ^ (k - n).
Proof.
  intros. replace k with (n + (k - n)) at 1 by lia. rewrite <- div_div. now rewrite mix_div.
Qed.

Lemma mix_div_lo q r n k : k <= n -> (q * 2 ^ n + r) / 2 ^ k = q * 2 ^ (n - k) + r / 2 ^ k.
Proof.
  intros. pose proof (pow2_pos k). replace n with ((n - k) + k) at 1 by lia.
  rewrite Nat.pow_add_r, Nat.mul_assoc. now rewrite Nat.div_add_l by lia.
Qed.

Lemma lor_bit q n r : r < 2 ^ n ->
  Nat.lor (q * 2 ^ S n + r) (2 ^ n) = q * 2 ^ S n + 2 ^ n + r.
Proof.
  intros H. apply Nat.bits_inj. intros i. rewrite Nat.lor_spec.
  replace (q * 2 ^ S n + r) with ((2 * q) * 2 ^ n + r) by (rewrite pow2_S; lia).
  replace (q * 2 ^ S n + 2 ^ n + r) with ((2 * q + 1) * 2 ^ n + r) by (rewrite pow2_S; lia).
  destruct (Nat.lt_ge_cases i n).
  - rewrite !mix_bit_lo, Nat.pow2_bits_false by (auto; lia). now rewrite orb_false_r.
  - rewrite !mix_bit_hi by auto. destruct (Nat.eq_dec i n) as [->|].
    + rewrite Nat.sub_diag, Nat.pow2_bits_true, Nat.testbit_odd_0. apply orb_true_r.
    + rewrite Nat.pow2_bits_false by lia. rewrite orb_false_r.
      destruct (i - n) as [|k] eqn:E; [lia|].
      now rewrite Nat.testbit_even_succ, Nat.testbit_odd_succ by lia.
Qed.

Lemma lor_shiftl a n r : r < 2 ^ n -> Nat.lor (a * 2 ^ n) r = a * 2 ^ n + r.
Proof.
  intros H. apply Nat.bits_inj. intros i. rewrite Nat.lor_spec.
  rewrite <- (Nat.add_0_r (a * 2 ^ n)) at 1. pose proof (pow2_pos n).
  destruct (Nat.lt_ge_cases i n).
  - rewrite !mix_bit_lo by (auto; lia). now rewrite Nat.bits_0.
  - rewrite !mix_bit_hi by auto. rewrite (bit_above r n i) by auto. apply orb_false_r.
Qed.

Lemma bits_zero x n : x < 2 ^ n -> (forall i, i < n -> Nat.testbit x i = false) -> x = 0.
Proof.
  intros L H. apply Nat.bits_inj_0. intros i. destruct (Nat.lt_ge_cases i n); auto.
  apply (bit_above x n); auto.
Qed.

Lemma bits_eq x y n : x < 2 ^ n -> y < 2 ^ n ->
  (forall i, i < n -> Nat.testbit x i = Nat.testbit y i) -> x = y.
Proof.
  intros Lx Ly H. apply Nat.bits_inj. intros i. destruct (Nat.lt_ge_cases i n); auto.
  rewrite (bit_above x n), (bit_above y n); auto.
Qed.

Lemma lxor_lt_pow a b n : a < 2 ^ n -> b < 2 ^ n -> Nat.lxor a b < 2 ^ n.
Proof.
  intros Ha Hb. destruct (Nat.lt_ge_cases (Nat.lxor a b) (2 ^ n)) as [L|L]; auto. exfalso.
  assert (NZ : Nat.lxor a b <> 0) by (pose proof (pow2_pos n); lia).
  assert (B := Nat.bit_log2 _ NZ). apply Nat.log2_le_pow2 in L; [|lia].
  rewrite Nat.lxor_spec, (bit_above a n), (bit_above b n) in B by auto. discriminate.
Qed.

(** The low [a + b] bits, split at bit [a]. *)
Lemma mod_split s a b : s mod 2 ^ (a + b) = (s / 2 ^ a) mod 2 ^ b * 2 ^ a + s mod 2 ^ a.
Proof.
  pose proof (pow2_pos a). pose proof (pow2_pos b).
  rewrite Nat.pow_add_r, Nat.mod_mul_r by lia. lia.
Qed.
