(** Facts about bits of natural numbers. *)
Require Import Coq.NArith.NArith Coq.Bool.Bool Coq.micromega.Lia Coq.ZArith.ZArith.
Require Import Coq.Lists.List.
Import ListNotations.
Local Open Scope N_scope.

Lemma bits_lt a n : a < 2 ^ n <-> (forall i, n <= i -> N.testbit a i = false).
Proof.
  split.
  - intros H i Hi. destruct (N.eq_dec a 0) as [->|Ha]; [apply N.bits_0|].
    apply N.bits_above_log2. apply N.log2_lt_pow2 in H; lia.
  - intros H. destruct (N.eq_dec a 0) as [->|Ha]; [apply N.neq_0_lt_0, N.pow_nonzero; lia|].
    apply N.log2_lt_pow2; [lia|].
    destruct (N.lt_ge_cases (N.log2 a) n) as [L|L]; auto.
    assert (X := N.bit_log2 a Ha). rewrite H in X; auto; discriminate.
Qed.

Lemma lxor_lt a b n : a < 2 ^ n -> b < 2 ^ n -> N.lxor a b < 2 ^ n.
Proof.
  intros Ha Hb. apply bits_lt. intros i Hi. rewrite N.lxor_spec.
  rewrite (proj1 (bits_lt a n) Ha), (proj1 (bits_lt b n) Hb); auto.
Qed.

Lemma lor_lt a b n : a < 2 ^ n -> b < 2 ^ n -> N.lor a b < 2 ^ n.
Proof.
  intros Ha Hb. apply bits_lt. intros i Hi. rewrite N.lor_spec.
  rewrite (proj1 (bits_lt a n) Ha), (proj1 (bits_lt b n) Hb); auto.
Qed.

Lemma land_lt_r a b n : b < 2 ^ n -> N.land a b < 2 ^ n.
Proof.
  intros Hb. apply bits_lt. intros i Hi. rewrite N.land_spec.
  rewrite (proj1 (bits_lt b n) Hb), andb_false_r; auto.
Qed.

Lemma land_lt_l a b n : a < 2 ^ n -> N.land a b < 2 ^ n.
Proof. intros. rewrite N.land_comm. now apply land_lt_r. Qed.

Lemma land_ones_lt a n : N.land a (N.ones n) < 2 ^ n.
Proof. rewrite N.land_ones. apply N.mod_lt. apply N.pow_nonzero. lia. Qed.

Lemma testbit_land_ones a n i : N.testbit (N.land a (N.ones n)) i = (N.testbit a i && (i <? n))%bool.
Proof.
  rewrite N.land_spec. f_equal. destruct (N.ltb_spec i n).
  - now apply N.ones_spec_low.
  - now apply N.ones_spec_high.
Qed.

Lemma testbit_shiftl a n i : N.testbit (N.shiftl a n) i = ((n <=? i) && N.testbit a (i - n))%bool.
Proof.
  destruct (N.leb_spec n i); simpl.
  - now apply N.shiftl_spec_high'.
  - now apply N.shiftl_spec_low.
Qed.

Lemma testbit_shiftr a n i : N.testbit (N.shiftr a n) i = N.testbit a (i + n).
Proof. apply N.shiftr_spec'. Qed.

Lemma testbit_high a n i : a < 2 ^ n -> n <= i -> N.testbit a i = false.
Proof. intros H. now apply bits_lt. Qed.

Lemma testbit_pow2 n i : N.testbit (2 ^ n) i = (n =? i).
Proof.
  destruct (N.eqb_spec n i).
  - subst. apply N.pow2_bits_true.
  - now apply N.pow2_bits_false.
Qed.
