(** Vanishing polynomials of binary subspaces: additivity, the recursion used to compute them, and
    how they compose. *)
Require Import Coq.setoid_ring.Ring Coq.Arith.Arith Coq.Lists.List Coq.Bool.Bool Lia.
From Verif Require Import Base.Fld Base.Lists Base.Sums Base.NatBits Ntt.NttSpec.
Import ListNotations.
Local Open Scope fld_scope.

Section Theory.
  Variable F : field.
  Hypothesis H2 : char2 F.
  Add Ring Fring : (f_ring F).

  (** The same notions over an infinite sequence of basis elements. *)
  Definition bsum (b : nat -> F) (n m : nat) : F :=
    sumn n (fun i => if Nat.testbit m i then b i else 0).

  Fixpoint W (b : nat -> F) (i : nat) (x : F) : F :=
    match i with O => x | S i => W b i x * (W b i x + W b i (b i)) end.

  Definition indep (b : nat -> F) (n : nat) : Prop :=
    forall m, (m < 2 ^ n)%nat -> bsum b n m = 0 -> m = 0%nat.

  Definition hat (b : nat -> F) (i : nat) (x : F) : F := W b i x * finv (W b i (b i)).

  Lemma bsum_ext b c n m : (forall i, (i < n)%nat -> b i = c i) -> bsum b n m = bsum c n m.
  Proof. intros H. apply sumn_ext. intros i Hi. now rewrite H. Qed.

  Lemma bsum_bits b n m k : (forall i, (i < n)%nat -> Nat.testbit m i = Nat.testbit k i) ->
    bsum b n m = bsum b n k.
  Proof. intros H. apply sumn_ext. intros i Hi. now rewrite H. Qed.

  Lemma bsum_0 b n : bsum b n 0 = 0.
  Proof. apply sumn_zero. intros. now rewrite Nat.bits_0. Qed.

  Lemma bsum_S b n m : bsum b (S n) m = bsum b n m + (if Nat.testbit m n then b n else 0).
  Proof. apply sumn_S. Qed.

  Lemma bsum_lxor b n m k : bsum b n (Nat.lxor m k) = bsum b n m + bsum b n k.
  Proof.
    unfold bsum. rewrite <- sumn_add. apply sumn_ext. intros i Hi. rewrite Nat.lxor_spec.
    destruct (Nat.testbit m i), (Nat.testbit k i); cbn; try ring. symmetry. now apply char2_double.
  Qed.

  (** Splitting the index at bit [n]. *)
  Lemma bsum_split b n k m q : (m < 2 ^ n)%nat ->
    bsum b (n + k) (q * 2 ^ n + m) = bsum b n m + bsum (fun i => b (n + i)%nat) k q.
  Proof.
    intros L. unfold bsum. rewrite sumn_split. f_equal; apply sumn_ext; intros i Hi.
    - now rewrite mix_bit_lo.
    - rewrite mix_bit_hi by (auto; lia). now replace (n + i - n)%nat with i by lia.
  Qed.

  Lemma bsum_inj b n m k : indep b n -> (m < 2 ^ n)%nat -> (k < 2 ^ n)%nat ->
    bsum b n m = bsum b n k -> m = k.
  Proof.
    intros I Lm Lk E. apply Nat.lxor_eq. apply I; [now apply lxor_lt_pow|].
    rewrite bsum_lxor, E. now apply char2_double.
  Qed.

  Lemma indep_prefix b n k : indep b n -> (k <= n)%nat -> indep b k.
  Proof.
    intros I L m Hm E. apply I.
    - pose proof (pow2_le k n). lia.
    - unfold bsum. rewrite (sumn_trunc F k); auto. intros i Hi.
      now rewrite (bit_above m k) by (auto; lia).
  Qed.

  Lemma W_add b i : forall x y, W b i (x + y) = W b i x + W b i y.
  Proof.
    induction i as [|i IH]; intros x y; cbn [W]; [reflexivity|]. rewrite !IH.
    set (p := W b i x). set (q := W b i y). set (c := W b i (b i)).
    replace ((p + q) * (p + q + c)) with (p * (p + c) + q * (q + c) + (p * q + p * q)) by ring.
    rewrite (char2_double F H2). ring.
  Qed.

  Lemma W_0 b i : W b i 0 = 0.
  Proof.
    pose proof (W_add b i 0 0) as E. replace (0 + 0) with (0 : F) in E by ring.
    rewrite (char2_double F H2) in E. exact E.
  Qed.

  (** The recursion computes the product over the span. *)
  Lemma W_prod b i : forall x, W b i x = prodn (2 ^ i) (fun m => x - bsum b i m).
  Proof.
    induction i as [|i IH]; intros x.
    - cbn [W Nat.pow]. rewrite prodn_S, prodn_0. unfold bsum. rewrite sumn_0. ring.
    - cbn [W]. rewrite <- (W_add b i). rewrite IH, (IH (x + b i)).
      rewrite pow2_S, prodn_split. f_equal; apply prodn_ext; intros m Hm; rewrite bsum_S.
      + rewrite (bit_above m i) by auto. ring.
      + replace (2 ^ i + m)%nat with (1 * 2 ^ i + m)%nat by lia.
        rewrite mix_bit_hi, Nat.sub_diag by auto. cbn [Nat.testbit Nat.odd negb Nat.even].
        rewrite (bsum_bits b i (1 * 2 ^ i + m) m) by (intros; now apply mix_bit_lo).
        rewrite !(char2_sub F H2). ring.
  Qed.

  Lemma W_root b i x : W b i x = 0 <-> exists m, (m < 2 ^ i)%nat /\ x = bsum b i m.
  Proof.
    rewrite W_prod, prodn_eq0. split; intros [m [L E]]; exists m; split; auto.
    - now apply fsub_eq0.
    - rewrite E. ring.
  Qed.

  Lemma W_norm b n i : indep b n -> (i < n)%nat -> W b i (b i) <> 0.
  Proof.
    intros I L E. apply W_root in E. destruct E as [m [Lm E]].
    assert (X : (2 ^ i + m = 0)%nat).
    { apply (indep_prefix b n (S i) I); [lia|rewrite pow2_S; lia|].
      replace (2 ^ i + m)%nat with (1 * 2 ^ i + m)%nat by lia. rewrite bsum_S.
      rewrite mix_bit_hi, Nat.sub_diag by auto. cbn [Nat.testbit Nat.odd negb Nat.even].
      rewrite (bsum_bits b i (1 * 2 ^ i + m) m) by (intros; now apply mix_bit_lo).
      rewrite <- E. now apply char2_double. }
    pose proof (pow2_pos i). lia.
  Qed.

  Lemma hat_add b i x y : hat b i (x + y) = hat b i x + hat b i y.
  Proof. unfold hat. rewrite W_add. ring. Qed.

  Lemma hat_0 b i : hat b i 0 = 0.
  Proof. unfold hat. rewrite W_0. ring. Qed.

  Lemma hat_norm b n i : indep b n -> (i < n)%nat -> hat b i (b i) = 1.
  Proof. intros. unfold hat. apply f_inv_r. now apply (W_norm b n). Qed.

  Lemma hat_low b i j : (j < i)%nat -> hat b i (b j) = 0.
  Proof.
    intros L. unfold hat. replace (W b i (b j)) with (0 : F); [ring|]. symmetry. apply W_root.
    exists (2 ^ j)%nat. split; [now apply pow2_lt|]. unfold bsum. symmetry.
    rewrite (sumn_single F i j); auto.
    - now rewrite Nat.pow2_bits_true.
    - intros k Hk Hn. now rewrite Nat.pow2_bits_false by auto.
  Qed.

  Lemma hat_first b x : b 0%nat = 1 -> hat b 0 x = x.
  Proof. intros E. unfold hat. cbn [W]. rewrite E, finv_1. ring. Qed.

  Lemma hat_bsum b i n m : hat b i (bsum b n m) =
    sumn n (fun j => if Nat.testbit m j then hat b i (b j) else 0).
  Proof.
    induction n as [|n IH]; [apply hat_0|].
    rewrite bsum_S, sumn_S, hat_add, IH. f_equal. destruct (Nat.testbit m n); auto. apply hat_0.
  Qed.

  Lemma W_S_hat b n i x : indep b n -> (i < n)%nat ->
    W b (S i) x = W b i (b i) * W b i (b i) * (hat b i x * hat b i x + hat b i x).
  Proof.
    intros I L. cbn [W]. pose proof (W_norm b n i I L) as N. unfold hat.
    set (c := W b i (b i)) in *. set (w := W b i x).
    replace (c * c * (w * finv c * (w * finv c) + w * finv c))
      with (w * (w * (finv c * c) * (finv c * c) + c * (finv c * c))) by ring.
    rewrite f_inv_l by auto. ring.
  Qed.

  Lemma hat_S b n i x : indep b n -> (S i < n)%nat ->
    hat b (S i) x = (hat b i x * hat b i x + hat b i x) *
      finv (hat b i (b (S i)) * hat b i (b (S i)) + hat b i (b (S i))).
  Proof.
    intros I L. unfold hat at 1. rewrite !(W_S_hat b n) by (auto; lia).
    pose proof (W_norm b n i I ltac:(lia)) as N. rewrite !finv_mul.
    set (c := W b i (b i)) in *. set (h := hat b i x * hat b i x + hat b i x).
    set (s := finv (hat b i (b (S i)) * hat b i (b (S i)) + hat b i (b (S i)))). replace (c * c * h * (finv c * finv c * s))
      with (h * s * (finv c * c) * (finv c * c)) by ring.
    rewrite f_inv_l by auto. ring.
  Qed.

  (** The image of the domain under the [s]-th normalised vanishing polynomial. *)
  Definition shifted (b : nat -> F) (s : nat) (j : nat) : F := hat b s (b (s + j)%nat).

  Lemma bsum_shifted b s k q : bsum (shifted b s) k q = hat b s (bsum (fun i => b (s + i)%nat) k q).
  Proof.
    induction k as [|k IH]; [symmetry; apply hat_0|].
    rewrite !bsum_S, hat_add, IH. f_equal. unfold shifted. destruct (Nat.testbit q k); auto.
    symmetry. apply hat_0.
  Qed.

  Lemma indep_shifted b s k : indep b (s + k) -> indep (shifted b s) k.
  Proof.
    intros I q Hq E. destruct (Nat.eq_dec k 0) as [->|K]; [cbn in Hq; lia|].
    rewrite bsum_shifted in E. unfold hat in E. apply fmul_eq0 in E. destruct E as [E|E].
    - apply W_root in E. destruct E as [m [Lm E]].
      assert (X : (q * 2 ^ s + m = 0)%nat).
      { apply I; [now apply mix_lt|]. rewrite bsum_split by auto. rewrite E. now apply char2_double. }
      pose proof (pow2_pos s). nia.
    - exfalso. revert E. apply finv_neq0. apply (W_norm b (s + k)); auto. lia.
  Qed.

  Lemma hat_shifted b s k i x : indep b (s + k) -> (i < k)%nat ->
    hat (shifted b s) i (hat b s x) = hat b (s + i) x.
  Proof.
    intros I. pose proof (indep_shifted b s k I) as IS. revert x. induction i as [|i IH]; intros x L.
    - rewrite Nat.add_0_r. apply hat_first. unfold shifted. rewrite Nat.add_0_r.
      apply (hat_norm b (s + k)); auto; lia.
    - rewrite (hat_S _ k) by auto.
      assert (E : shifted b s (S i) = hat b s (b (s + S i)%nat)) by reflexivity. rewrite E, !IH by lia.
      rewrite !Nat.add_succ_r. now rewrite (hat_S b (s + k)) by (auto; lia).
  Qed.

  Lemma shifted_shifted b s t k j : indep b (s + k) -> (t < k)%nat ->
    shifted (shifted b s) t j = shifted b (s + t) j.
  Proof.
    intros I L. unfold shifted at 1. unfold shifted at 2. rewrite (hat_shifted b s k) by auto.
    unfold shifted. now rewrite Nat.add_assoc.
  Qed.

  Lemma shifted_first b s n : indep b n -> (s < n)%nat -> shifted b s 0 = 1.
  Proof. intros. unfold shifted. rewrite Nat.add_0_r. now apply (hat_norm b n). Qed.

  (** Evaluating the [i]-th normalised polynomial at the [m]-th domain element: bit [i] of [m]
      contributes 1, the bits below nothing. *)
  Lemma hat_index b n i m : indep b n -> (i < n)%nat -> (m < 2 ^ n)%nat ->
    hat b i (bsum b n m) =
    bsum (fun j => hat b i (b (S i + j)%nat)) (n - S i) (m / 2 ^ S i) +
    (if Nat.testbit m i then 1 else 0).
  Proof.
    intros I L Lm. rewrite hat_bsum. replace n with (i + (1 + (n - S i)))%nat at 1 by lia.
    rewrite sumn_split, sumn_split, sumn_1, Nat.add_0_r. rewrite (sumn_zero F i).
    2:{ intros j Hj. destruct (Nat.testbit m j); auto. now apply hat_low. }
    rewrite (hat_norm b n) by auto.
    replace (sumn (n - S i) (fun k => if Nat.testbit m (i + (1 + k)) then hat b i (b (i + (1 + k))%nat) else 0))
      with (bsum (fun j => hat b i (b (S i + j)%nat)) (n - S i) (m / 2 ^ S i)); [ring|].
    apply sumn_ext. intros k Hk. rewrite Nat.div_pow2_bits.
    replace (k + S i)%nat with (i + (1 + k))%nat by lia. replace (S i + k)%nat with (i + (1 + k))%nat by lia.
    reflexivity.
  Qed.

  Lemma W_ext b c i : (forall j, (j < i)%nat -> b j = c j) -> forall x, W b i x = W c i x.
  Proof.
    induction i as [|i IH]; intros H x; cbn [W]; auto.
    rewrite !IH by (intros; apply H; lia). now rewrite H by lia.
  Qed.

  Lemma hat_ext b c i x : (forall j, (j <= i)%nat -> b j = c j) -> hat b i x = hat c i x.
  Proof.
    intros H. unfold hat. rewrite !(W_ext b c) by (intros; apply H; lia). now rewrite H by lia.
  Qed.

  (** ** Lists as bases *)
  Definition bs (basis : list F) (i : nat) : F := nth i basis 0.

  Lemma elem_bsum (basis : list F) m : elem basis m = bsum (bs basis) (length basis) m.
  Proof. reflexivity. Qed.

  Lemma lin_indep_iff (basis : list F) : lin_indep basis <-> indep (bs basis) (length basis).
  Proof. reflexivity. Qed.

  Lemma vanishing_W (basis : list F) i x : (i <= length basis)%nat -> vanishing basis i x = W (bs basis) i x.
  Proof.
    intros L. unfold vanishing. rewrite W_prod. apply prodn_ext. intros m Hm. f_equal.
    unfold elem. rewrite firstn_length_le by auto. apply sumn_ext. intros j Hj.
    now rewrite nth_firstn_lt by auto.
  Qed.

  Lemma norm_vanishing_hat (basis : list F) i x : (i < length basis)%nat ->
    norm_vanishing basis i x = hat (bs basis) i x.
  Proof. intros L. unfold norm_vanishing, hat. now rewrite !vanishing_W by lia. Qed.

  Lemma elem_inj (basis : list F) m k : lin_indep basis -> (m < 2 ^ length basis)%nat -> (k < 2 ^ length basis)%nat ->
    elem basis m = elem basis k -> m = k.
  Proof. apply bsum_inj. Qed.
End Theory.

Arguments bsum {_} _ _ _.
Arguments W {_} _ _ _.
Arguments hat {_} _ _ _.
Arguments indep {_} _ _.
Arguments shifted {_} _ _ _.
Arguments bs {_} _ _.
