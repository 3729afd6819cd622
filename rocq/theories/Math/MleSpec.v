(** Specification of multilinear extensions, independent of the code.

    A table [v : nat -> F] of [2^n] values is read as a function on the hypercube: index [x] is the
    point whose coordinate [i] is bit [i] of [x] (little endian).  [mle v r] is the evaluation at
    [r] of the unique polynomial, affine in each variable, that agrees with [v] on the hypercube:
    existence is [mle_on_cube] and [mle_affine], uniqueness is [mle_unique]. *)
Require Import Coq.setoid_ring.Ring Coq.Arith.Arith Coq.Lists.List Coq.Bool.Bool Lia.
From Verif Require Import Base.Fld Base.Lists Base.Sums.
Import ListNotations.

Lemma div2_lt_pow x n : (x < 2 ^ S n)%nat -> (x / 2 < 2 ^ n)%nat.
Proof. intros. apply Nat.div_lt_upper_bound; [lia|]. cbn [Nat.pow] in H. lia. Qed.

Lemma odd_div x : (x = 2 * (x / 2) + (if Nat.odd x then 1 else 0))%nat.
Proof.
  rewrite <- Nat.bit0_odd. pose proof (Nat.div_mod x 2 ltac:(lia)) as E.
  rewrite <- Nat.bit0_mod in E. unfold Nat.b2n in E. destruct (Nat.testbit x 0); lia.
Qed.

Lemma odd_double x b : (b < 2)%nat -> Nat.odd (2 * x + b) = (b =? 1)%nat.
Proof.
  intros. rewrite Nat.odd_add, Nat.odd_mul. cbn [Nat.odd Nat.even]. rewrite andb_false_l.
  destruct b as [|[|b]]; [reflexivity|reflexivity|lia].
Qed.

Lemma div_double x b : (b < 2)%nat -> ((2 * x + b) / 2 = x)%nat.
Proof. intros. rewrite Nat.mul_comm, Nat.div_add_l by lia. rewrite Nat.div_small; lia. Qed.

Lemma odd_double0 x : Nat.odd (2 * x) = false.
Proof. rewrite <- (Nat.add_0_r (2 * x)). now rewrite odd_double by lia. Qed.

Lemma div_double0 x : (2 * x / 2 = x)%nat.
Proof. rewrite <- (Nat.add_0_r (2 * x)). now rewrite div_double by lia. Qed.

Section Spec.
  Variable F : field.
  Local Open Scope fld_scope.
  Add Ring Fring : (f_ring F).

  (** The weight of hypercube vertex [x] at the point [r]:
      the product over i of [r_i] if bit i of x is set and [1 - r_i] otherwise. *)
  Fixpoint eqw (r : list F) (x : nat) : F :=
    match r with
    | [] => 1
    | r0 :: r' => (if Nat.odd x then r0 else 1 - r0) * eqw r' (x / 2)
    end.

  (** The evaluation at [r] of the multilinear extension of the first [2^(length r)] values. *)
  Definition mle (v : nat -> F) (r : list F) : F :=
    sumn (2 ^ length r) (fun x => v x * eqw r x).

  (** The point of the hypercube with index [x]. *)
  Fixpoint vertex (n x : nat) : list F :=
    match n with
    | O => []
    | S n' => (if Nat.odd x then 1 else 0) :: vertex n' (x / 2)
    end.

  Lemma vertex_length n x : length (vertex n x) = n.
  Proof. revert x. induction n; cbn; intros; auto. Qed.

  Lemma mle_nil v : mle v [] = v 0%nat.
  Proof. unfold mle. cbn [length Nat.pow]. rewrite sumn_1. cbn. ring. Qed.

  Lemma mle_cons v r0 r :
    mle v (r0 :: r) = mle (fun x => (1 - r0) * v (2 * x)%nat + r0 * v (2 * x + 1)%nat) r.
  Proof.
    unfold mle. cbn [length]. rewrite Nat.pow_succ_r', sumn_double. apply sumn_ext. intros i Hi.
    cbn [eqw]. rewrite odd_double0, div_double0, odd_double, div_double by lia.
    cbn [Nat.eqb]. ring.
  Qed.

  Lemma mle_ext v w r : (forall x, (x < 2 ^ length r)%nat -> v x = w x) -> mle v r = mle w r.
  Proof. intros H. apply sumn_ext. intros. now rewrite H. Qed.

  Lemma mle_lin v w c d r : mle (fun x => c * v x + d * w x) r = c * mle v r + d * mle w r.
  Proof.
    unfold mle. rewrite <- !sumn_scale, <- sumn_add. apply sumn_ext. intros. ring.
  Qed.

  (** The extension agrees with the table on the hypercube. *)
  Theorem mle_on_cube n v x : (x < 2 ^ n)%nat -> mle v (vertex n x) = v x.
  Proof.
    revert v x. induction n; intros v x Hx.
    - cbn in Hx. cbn [vertex]. rewrite mle_nil. f_equal. lia.
    - cbn [vertex]. rewrite mle_cons, IHn by (now apply div2_lt_pow).
      pose proof (odd_div x) as Ex. destruct (Nat.odd x) eqn:E.
      + rewrite <- Ex. ring.
      + rewrite Nat.add_0_r in Ex. rewrite <- Ex. ring.
  Qed.

  (** It is affine in each coordinate. *)
  Theorem mle_affine v a b r :
    mle v (a ++ r :: b) = (1 - r) * mle v (a ++ 0 :: b) + r * mle v (a ++ 1 :: b).
  Proof.
    revert v. induction a as [|a0 a IH]; intros v; cbn [app].
    - rewrite !mle_cons. rewrite <- !mle_lin. apply mle_ext. intros. ring.
    - rewrite !(mle_cons v). apply IH.
  Qed.

  (** Any function that is affine in each coordinate and agrees with [v] on the hypercube is [mle v]. *)
  Theorem mle_unique n (v : nat -> F) (g : list F -> F) :
    (forall a b r, (length a + S (length b))%nat = n ->
       g (a ++ r :: b) = (1 - r) * g (a ++ 0 :: b) + r * g (a ++ 1 :: b)) ->
    (forall x, (x < 2 ^ n)%nat -> g (vertex n x) = v x) ->
    forall r, length r = n -> g r = mle v r.
  Proof.
    revert v g. induction n; intros v g HA HC r Hr.
    - destruct r; [|discriminate]. rewrite mle_nil, <- (HC 0%nat) by (cbn; lia). reflexivity.
    - destruct r as [|r0 r]; [discriminate|]. cbn in Hr. injection Hr as Hr.
      pose proof (HA [] r r0) as H0. cbn [app length] in H0. rewrite H0 by lia. rewrite mle_cons, mle_lin.
      assert (X : forall b : bool, g ((if b then 1 else 0) :: r) = mle (fun x => v (2 * x + if b then 1 else 0)%nat) r).
      { intros b. apply (IHn _ (fun r => g ((if b then 1 else 0) :: r))); auto.
        - intros a c t Hl. apply (HA (_ :: a) c t). cbn; lia.
        - intros x Hx. rewrite <- HC; [|cbn [Nat.pow]; destruct b; lia].
          cbn [vertex]. rewrite odd_double, div_double by (destruct b; lia). now destruct b. }
      rewrite (X true : g (1 :: r) = _), (X false : g (0 :: r) = _). f_equal. f_equal.
      apply mle_ext. intros. now rewrite Nat.add_0_r.
  Qed.

  (** Splitting the variables. *)
  Lemma eqw_app a b x :
    eqw (a ++ b) x = eqw a (x mod 2 ^ length a) * eqw b (x / 2 ^ length a).
  Proof.
    revert x. induction a as [|a0 a IH]; intros x.
    - cbn [app length Nat.pow eqw]. rewrite Nat.div_1_r. ring.
    - cbn [app eqw length]. rewrite IH, Nat.div_div, <- Nat.pow_succ_r' by (try apply Nat.pow_nonzero; lia).
      replace (Nat.odd (x mod 2 ^ S (length a))) with (Nat.odd x).
      2:{ rewrite <- !Nat.bit0_odd, Nat.mod_pow2_bits_low; auto. lia. }
      replace (x mod 2 ^ S (length a) / 2)%nat with ((x / 2) mod 2 ^ length a)%nat; [ring|].
      rewrite Nat.pow_succ_r', Nat.mod_mul_r by (try apply Nat.pow_nonzero; lia).
      rewrite Nat.mul_comm, Nat.div_add by lia. rewrite (Nat.div_small (x mod 2)); [lia|].
      apply Nat.mod_upper_bound. lia.
  Qed.

  Lemma eqw_mod a x : eqw a (x mod 2 ^ length a) = eqw a x.
  Proof. pose proof (eqw_app a [] x) as H. rewrite app_nil_r in H. cbn [eqw] in H. rewrite H. ring. Qed.

  (** Fixing the high variables [b]. *)
  Lemma mle_app_high v a b :
    mle v (a ++ b) = mle (fun x => mle (fun y => v (x + 2 ^ length a * y)%nat) b) a.
  Proof.
    unfold mle. rewrite app_length, Nat.pow_add_r, (Nat.mul_comm (2 ^ length a)), sumn_mul, sumn_swap.
    apply sumn_ext. intros x Hx. rewrite <- sumn_scale_r. apply sumn_ext. intros y Hy.
    rewrite eqw_app. replace (y * 2 ^ length a + x)%nat with (x + y * 2 ^ length a)%nat by lia.
    rewrite Nat.mod_add, Nat.div_add, Nat.mod_small, Nat.div_small by lia. cbn [Nat.add].
    rewrite (Nat.mul_comm y). ring.
  Qed.

  (** Fixing the low variables [a]. *)
  Lemma mle_app_low v a b :
    mle v (a ++ b) = mle (fun y => mle (fun x => v (x + 2 ^ length a * y)%nat) a) b.
  Proof.
    rewrite mle_app_high. unfold mle.
    rewrite (sumn_ext _ _ _ (fun x => sumn (2 ^ length b) (fun y => v (x + 2 ^ length a * y)%nat * eqw b y * eqw a x))).
    2:{ intros. symmetry. apply sumn_scale_r. }
    rewrite sumn_swap. apply sumn_ext. intros y Hy. rewrite <- sumn_scale_r. apply sumn_ext. intros. ring.
  Qed.

  (** Fixing the variables [b] in the middle. *)
  Lemma mle_app_mid v a b c :
    mle v (a ++ b ++ c) =
    mle (fun z => mle (fun y => v (z mod 2 ^ length a + 2 ^ length a * y
                                   + 2 ^ (length a + length b) * (z / 2 ^ length a))%nat) b) (a ++ c).
  Proof.
    rewrite mle_app_high. rewrite (mle_app_high _ a c). apply mle_ext. intros x Hx.
    rewrite mle_app_low. apply mle_ext. intros y Hy. apply mle_ext. intros z Hz.
    replace (x + 2 ^ length a * y)%nat with (x + y * 2 ^ length a)%nat by lia.
    rewrite Nat.mod_add, Nat.div_add, Nat.mod_small, Nat.div_small by (try apply Nat.pow_nonzero; lia).
    f_equal. rewrite Nat.pow_add_r. lia.
  Qed.

  (** The weights of a point sum to one. *)
  Lemma eqw_sum a : sumn (2 ^ length a) (eqw a) = 1.
  Proof.
    induction a as [|a0 a IH].
    - cbn [length Nat.pow]. rewrite sumn_1. reflexivity.
    - cbn [length]. rewrite Nat.pow_succ_r', sumn_double. rewrite <- IH. apply sumn_ext. intros i Hi.
      cbn [eqw]. rewrite odd_double0, div_double0, odd_double, div_double by lia.
      cbn [Nat.eqb]. ring.
  Qed.

  Lemma eqw_vertex n y x : (x < 2 ^ n)%nat -> (y < 2 ^ n)%nat ->
    eqw (vertex n y) x = if (x =? y)%nat then 1 else 0.
  Proof.
    revert x y. induction n; intros x y Hx Hy.
    - cbn in *. replace x with 0%nat by lia. replace y with 0%nat by lia. reflexivity.
    - cbn [vertex eqw]. rewrite IHn by (now apply div2_lt_pow).
      pose proof (odd_div x) as Ex. pose proof (odd_div y) as Ey.
      destruct (Nat.eqb_spec (x / 2) (y / 2)) as [E|E], (Nat.odd x), (Nat.odd y);
        destruct (Nat.eqb_spec x y); try lia; ring.
  Qed.
End Spec.

Arguments eqw {_} _ _.
Arguments mle {_} _ _.
Arguments vertex {_} _ _.
