(** C01-C06: the binary tower fields.  [inr k a] says [a] is a valid bit pattern of level k,
    i.e. a < 2^(2^k).  All statements are about the bit-level functions of TowerModel.v. *)
Require Import Coq.Arith.Arith Coq.NArith.NArith Coq.Lists.List Coq.Bool.Bool Lia.
Require Import Verif.Base.Fld Verif.Base.Bits Verif.Field.Quad Verif.Field.TowerModel
  Verif.Field.TowerProofs Verif.Field.TowerBases.
Import ListNotations.
Local Open Scope N_scope.

(** * C01: every level is a commutative field of characteristic two *)

Theorem tower_is_field k :
  (forall a b, inr k a -> inr k b -> inr k (tadd a b)) /\
  (forall a b, inr k a -> inr k b -> inr k (tmul k a b)) /\
  (forall a b, tadd a b = tadd b a) /\
  (forall a b c, tadd a (tadd b c) = tadd (tadd a b) c) /\
  (forall a, tadd 0 a = a) /\
  (forall a, tadd a a = 0) /\
  (forall a b, tsub a b = tadd a b) /\
  (forall a b, inr k a -> inr k b -> tmul k a b = tmul k b a) /\
  (forall a b c, inr k a -> inr k b -> inr k c -> tmul k a (tmul k b c) = tmul k (tmul k a b) c) /\
  (forall a b c, inr k a -> inr k b -> inr k c ->
     tmul k (tadd a b) c = tadd (tmul k a c) (tmul k b c)) /\
  (forall a, inr k a -> tmul k 1 a = a) /\
  (forall a, inr k a -> a <> 0 -> exists b, inr k b /\ tmul k a b = 1).
Proof.
  repeat split.
  - intros; now apply tadd_inr.
  - intros; now apply tmul_inr.
  - intros; apply N.lxor_comm.
  - intros; unfold tadd; now rewrite N.lxor_assoc.
  - intros; apply N.lxor_nilpotent.
  - intros; now apply tmul_comm.
  - intros; now apply tmul_assoc.
  - intros; now apply tmul_distr.
  - intros; now apply tmul_1_l.
  - intros a Ha Hz. exists (tinv k a). split; [now apply tinv_inr|now apply tinv_mul].
Qed.

(** Examples: level 7 has elements beyond the subfields, and the product of two of them is not
    trivial. *)
Example tower_is_field_ex :
  inr 3 0x9f /\ inr 3 0xd2 /\ tmul 3 0x9f 0xd2 <> 0 /\ tmul 3 0x9f 0xd2 <> 0x9f /\
  inr 7 (2 ^ 127) /\ tmul 7 (2 ^ 127) (tinv 7 (2 ^ 127)) = 1.
Proof. vm_compute. repeat split; discriminate. Qed.

(** The defining relation: X_k = 2^(2^k) is the generator of level k+1 over level k, and
    X_k^2 = X_k * X_(k-1) + 1, with X_0^2 = X_0 + 1. *)
Definition gen (k : nat) : N := 2 ^ (2 ^ N.of_nat k).

Lemma gen_inr k : inr (S k) (gen k).
Proof. unfold gen. rewrite <- alpha_pat_val. apply alpha_pat_inr. Qed.

Theorem tower_generator_relation :
  tmul 1 (gen 0) (gen 0) = tadd (gen 0) 1 /\
  forall k, tmul (S (S k)) (gen (S k)) (gen (S k)) =
            tadd (tmul (S (S k)) (gen (S k)) (gen k)) 1.
Proof.
  split; [reflexivity|]. intros k.
  unfold gen. rewrite <- !alpha_pat_val.
  pose proof (alpha_pat_inr (S (S k))) as H2. pose proof (alpha_pat_inr (S k)) as H1.
  rewrite (tmul_sub_halves (S k) _ (alpha_pat (S k))) by auto.
  set (j := S k) in *. set (al := alpha_pat j) in *. cbn [alpha_pat]. cbn [tmul].
  fold (alpha_pat j). fold al.
  rewrite lo_join, hi_join by auto using inr_0, inr_1.
  change tsub with tadd.
  assert (Z : forall a, tadd 0 a = a) by (intros; apply N.lxor_0_l).
  assert (Z' : forall a, tadd a 0 = a) by (intros; apply N.lxor_0_r).
  assert (NN : tadd 1 1 = 0) by reflexivity.
  rewrite !Z, (tmul_1_l j 1), (tmul_0_l j 0) by auto using inr_1, inr_0.
  change (tadd 0 1) with 1. rewrite NN, (tmul_alpha_spec j 1), Z by apply inr_1.
  rewrite (tmul_1_l j (alpha_pat j)), (tmul_1_l j al), (tmul_0_l j al) by auto.
  transitivity (tadd (join j 0 al) (join j 1 0)).
  - unfold tadd. rewrite join_xor by auto using inr_0, inr_1. now rewrite N.lxor_0_r, N.lxor_0_l.
  - reflexivity.
Qed.

Example tower_generator_relation_ex : gen 2 = 16 /\ tmul 3 16 16 = tadd (tmul 3 16 4) 1.
Proof. split; reflexivity. Qed.

(** * C02: inversion *)

Theorem tower_invert_or_zero k a : inr k a ->
  inr k (tinv k a) /\
  (a = 0 -> tinv k a = 0) /\
  (a <> 0 -> tmul k a (tinv k a) = 1 /\ tmul k (tinv k a) a = 1).
Proof.
  intros Ha. pose proof (tinv_inr k a Ha). repeat split; auto.
  - intros ->. apply tinv_0.
  - now apply tinv_mul.
  - rewrite tmul_comm by auto. now apply tinv_mul.
Qed.

Lemma tinv_eq0 k a : inr k a -> tinv k a = 0 -> a = 0.
Proof.
  intros Ha E. destruct (N.eq_dec a 0) as [|Hz]; auto. exfalso.
  pose proof (tinv_mul k a Ha Hz) as M. rewrite E, tmul_comm, tmul_0_l in M; auto using inr_0.
  discriminate.
Qed.

(** [invert] answers None exactly on zero and otherwise the unique inverse. *)
Theorem tower_invert k a : inr k a ->
  (tinvert k a = None <-> a = 0) /\
  (forall b, tinvert k a = Some b <-> inr k b /\ tmul k a b = 1).
Proof.
  intros Ha. unfold tinvert. split.
  - destruct (N.eqb_spec (tinv k a) 0) as [E|E]; split; auto; try discriminate.
    + intros _. now apply (tinv_eq0 k).
    + intros ->. exfalso. apply E. apply tinv_0.
  - intros b. destruct (N.eqb_spec (tinv k a) 0) as [E|E]; split; try discriminate.
    + intros [Hb M]. apply tinv_eq0 in E; auto. subst a.
      rewrite tmul_0_l in M by auto. discriminate.
    + intros [= <-]. split; [now apply tinv_inr|]. apply tinv_mul; auto.
      intros ->. apply E, tinv_0.
    + intros [Hb M]. f_equal.
      assert (Hz : a <> 0) by (intros ->; apply E, tinv_0).
      pose proof (tinv_inr k a Ha) as Hi.
      rewrite <- (tmul_1_l k (tinv k a)) by auto. rewrite <- M.
      rewrite (tmul_comm k a b) by auto. rewrite <- tmul_assoc by auto.
      rewrite tinv_mul by auto. rewrite tmul_comm by auto using inr_1. now apply tmul_1_l.
Qed.

Example tower_invert_ex : tinvert 3 0 = None /\ exists b, tinvert 7 (2 ^ 100 + 7) = Some b /\ b <> 1.
Proof. split; [reflexivity|]. eexists. split; [vm_compute; reflexivity|discriminate]. Qed.

(** * C03: squaring and multiplication by alpha *)

Theorem tower_square k a : inr k a -> tsquare k a = tmul k a a.
Proof. apply tsquare_spec. Qed.

(** alpha of level 0 is 1; of level k+1 it is the generator over level k. *)
Theorem tower_mul_alpha a : 
  (inr 0 a -> tmul_alpha 0 a = tmul 0 a 1) /\
  (forall k, inr (S k) a -> tmul_alpha (S k) a = tmul (S k) a (gen k)).
Proof.
  split; intros; rewrite tmul_alpha_spec by auto; [reflexivity|now rewrite alpha_pat_val].
Qed.

Theorem tower_square_additive k a b : inr k a -> inr k b ->
  tsquare k (tadd a b) = tadd (tsquare k a) (tsquare k b).
Proof.
  intros. rewrite !tsquare_spec by auto using tadd_inr.
  pose proof (tmul_inr k a b). pose proof (tadd_inr k a b).
  rewrite (tmul_distr k a b), !(tmul_comm k _ (tadd a b)), !(tmul_distr k a b) by auto.
  rewrite (tmul_comm k b a) by auto. unfold tadd.
  rewrite !N.lxor_assoc. f_equal. rewrite <- N.lxor_assoc, N.lxor_nilpotent. apply N.lxor_0_l.
Qed.

Example tower_square_ex : tsquare 3 0xd2 = tmul 3 0xd2 0xd2 /\ tmul_alpha 3 0xd2 = tmul 3 0xd2 16
  /\ tmul_alpha 3 0xd2 <> 0xd2.
Proof. vm_compute. repeat split; discriminate. Qed.

(** * C04: subfields *)

(** Zero extension into a higher level is an injective field homomorphism. *)
Theorem tower_embedding j k : (j <= k)%nat ->
  (forall a, inr j a -> inr k (tembed a)) /\
  tembed 0 = 0 /\ tembed 1 = 1 /\
  (forall a b, tembed a = tembed b -> a = b) /\
  (forall a b, inr j a -> inr j b -> tembed (tadd a b) = tadd (tembed a) (tembed b)) /\
  (forall a b, inr j a -> inr j b -> tembed (tmul j a b) = tmul k (tembed a) (tembed b)) /\
  (forall a, inr j a -> tembed (tinv j a) = tinv k (tembed a)).
Proof.
  intros L. unfold tembed. repeat split; auto.
  - intros a. now apply inr_le.
  - intros. now rewrite (tmul_small j k).
  - intros a Ha. destruct (N.eq_dec a 0) as [->|Hz]; [now rewrite !tinv_0|].
    assert (Ha' : inr k a) by now apply (inr_le j).
    pose proof (tinv_inr j a Ha) as Hi. assert (Hi' : inr k (tinv j a)) by now apply (inr_le j).
    pose proof (tinv_inr k a Ha') as Hk.
    assert (M : tmul k a (tinv j a) = 1) by (rewrite (tmul_small j k) by auto; now apply tinv_mul).
    rewrite <- (tmul_1_l k (tinv k a)) by auto. rewrite <- M.
    rewrite (tmul_comm k a _) by auto. rewrite <- tmul_assoc by auto. rewrite tinv_mul by auto.
    rewrite tmul_comm by auto using inr_1. now rewrite tmul_1_l.
Qed.

(** The checked conversion to a subfield succeeds exactly on subfield elements, and then
    inverts the embedding. *)
Theorem tower_try_from j a s :
  ttry_from j a = Some s <-> inr j s /\ a = tembed s.
Proof.
  rewrite ttry_from_spec. unfold tembed, inr.
  destruct (N.ltb_spec a (2 ^ 2 ^ N.of_nat j)); split.
  - intros [= <-]. auto.
  - intros [? ->]. auto.
  - discriminate.
  - intros [? ->]. lia.
Qed.

(** Multiplication by a subfield scalar (all three code paths) is multiplication by the embedded
    scalar. *)
Theorem tower_scalar_mul d j a r : inr (d + j) a -> inr j r ->
  tmul_sub d j a r = tmul (d + j) a (tembed r).
Proof. apply tmul_sub_spec. Qed.

Theorem tower_scalar_mul_1b k a r : inr k a -> inr 0 r -> tmul_1b k a r = tmul k a (tembed r).
Proof. apply tmul_1b_spec. Qed.

(** min_tower_level is the least level whose field contains the value. *)
Theorem tower_min_level k a : inr k a ->
  (tmin_level k a <= k)%nat /\ inr (tmin_level k a) a /\
  forall j, (j < tmin_level k a)%nat -> ~ inr j a.
Proof.
  intros Ha. unfold tmin_level. destruct (min_level_spec k 0 a Ha) as [L [I M]].
  cbn [Nat.add] in L. repeat split; try lia; auto. intros j Hj. apply M. lia.
Qed.

Example tower_subfield_ex :
  ttry_from 3 0xd2 = Some 0xd2 /\ ttry_from 2 0xd2 = None /\ tmin_level 7 0xd2 = 3%nat /\
  tmul_sub 1 2 0xd2 0x7 = tmul 3 0xd2 0x7 /\ tmul 3 0xd2 0x7 <> 0xd2.
Proof. vm_compute. repeat split; discriminate. Qed.

(** * C05: powers and Frobenius *)

(** pow(x, exp) is x multiplied with itself [limbs exp] times, where [limbs] is the little-endian
    base-2^64 value of the exponent slice. *)
Theorem tower_pow k x exp : inr k x -> Forall (fun e => e < 2 ^ 64) exp ->
  tpow k x exp = N.iter (limbs exp) (tmul k x) 1.
Proof.
  intros Hx He. 
  assert (I : forall n, inr k (N.iter n (tmul k x) 1)).
  { intros n. apply N.iter_invariant; auto using inr_1. intros; now apply tmul_inr. }
  apply (dec_inj k); auto.
  - now apply tpow_inr.
  - rewrite dec_tpow by auto. unfold npow.
    generalize (limbs exp). intros n.
    induction n using N.peano_ind; [symmetry; apply dec_1|].
    rewrite !N.iter_succ. rewrite IHn. symmetry. now apply dec_mul.
Qed.

(** Fermat / Frobenius: squaring 2^k times is the identity of level k. *)
Theorem tower_frobenius k x : inr k x -> Nat.iter (Nat.pow 2 k) (tsquare k) x = x.
Proof.
  intros Hx.
  assert (I : forall n, inr k (Nat.iter n (tsquare k) x)).
  { induction n; simpl; auto using tsquare_inr. }
  assert (D : forall n, dec k (Nat.iter n (tsquare k) x) = iter_sq (TF k) n (dec k x)).
  { induction n; [reflexivity|]. cbn [Nat.iter nat_rect iter_sq]. 
    change (nat_rect (fun _ => N) x (fun _ => tsquare k) n) with (Nat.iter n (tsquare k) x).
    rewrite dec_square by auto. rewrite IHn.
    symmetry. apply iter_sq_mul. apply (st_2 (stage_at k)). }
  apply (dec_inj k); auto. rewrite D. rewrite <- stage_n. apply st_frob.
Qed.

Example tower_pow_ex : tpow 3 0xd2 [255] = 1 /\ tpow 3 0xd2 [5; 1] = tpow 3 0xd2 [6] /\
  Nat.iter 8 (tsquare 3) 0xd2 = 0xd2 /\ Nat.iter 4 (tsquare 3) 0xd2 <> 0xd2.
Proof. vm_compute. repeat split; discriminate. Qed.

(** * C06: bases of one level over another *)

(** Splitting into base-field coefficients and joining again is the identity, both ways. *)
Theorem tower_bases_roundtrip d j : (0 < d)%nat ->
  (forall a, inr (d + j) a -> tfrom_bases d j (titer_bases d j a) = Some a) /\
  (forall l, length l = (2 ^ d)%nat -> Forall (inr j) l ->
     exists v, tfrom_bases d j l = Some v /\ inr (d + j) v /\ titer_bases d j v = l).
Proof.
  intros Hd. split.
  - intros; now apply tfrom_iter_bases.
  - intros l Hl Hf. destruct (tfrom_bases_ok d j l) as [v [E [I B]]]; auto; [lia|].
    exists v. repeat split; auto. now apply (titer_from_bases d j).
Qed.

(** Short lists are zero-padded; long lists are rejected. *)
Theorem tower_from_bases d j l : (0 < d)%nat -> Forall (inr j) l ->
  ((length l <= 2 ^ d)%nat -> exists v, tfrom_bases d j l = Some v /\ inr (d + j) v /\
      forall i, (i < 2 ^ d)%nat -> tget_base j v i = nth i l 0) /\
  ((2 ^ d < length l)%nat -> tfrom_bases d j l = None).
Proof.
  intros Hd Hf. split; intros.
  - now apply tfrom_bases_ok.
  - apply tfrom_bases_sparse_long; auto. now rewrite Nat.sub_0_r.
Qed.

(** Sparse variant: element i lands at coefficient i * 2^log_stride. *)
Theorem tower_from_bases_sparse d j s l : (s < d)%nat -> Forall (inr j) l ->
  ((length l <= 2 ^ (d - s))%nat -> exists v, tfrom_bases_sparse d j l s = Some v /\ inr (d + j) v /\
      forall i, (i < 2 ^ d)%nat -> tget_base j v i =
        if (i mod 2 ^ s =? 0)%nat then nth (i / 2 ^ s) l 0 else 0) /\
  ((2 ^ (d - s) < length l)%nat -> tfrom_bases_sparse d j l s = None).
Proof.
  intros Hd Hf. split; intros.
  - now apply tfrom_bases_sparse_ok.
  - now apply tfrom_bases_sparse_long.
Qed.

(** With log_stride = d the stride wraps to zero and over-long input is accepted: two elements
    are OR-ed on the same coefficient although only one fits. *)
Theorem tower_from_bases_sparse_full_stride_refuted :
  exists d j l, Forall (inr j) l /\ (2 ^ (d - d) < length l)%nat /\ tfrom_bases_sparse d j l d <> None.
Proof.
  exists 1%nat, 3%nat, [1; 2]. repeat split.
  - repeat constructor.
  - cbn; lia.
  - vm_compute. discriminate.
Qed.

(** The value is the linear combination of the basis elements with its coefficients. *)
Definition lin_comb (k : nat) (cs bs : list N) : N :=
  fold_right (fun '(c, b) acc => tadd (tmul k b c) acc) 0 (combine cs bs).

Lemma tget_base_pow2 d j i m : (i < 2 ^ d)%nat -> (m < 2 ^ d)%nat ->
  tget_base j (N.shiftl 1 (N.of_nat i * nbits j)) m = if (m =? i)%nat then 1 else 0.
Proof.
  intros Hi Hm. apply N.bits_inj. intros r. rewrite tget_base_bit.
  rewrite N.shiftl_1_l, N.pow2_bits_eqb.
  pose proof (nbits_pos j) as P.
  destruct (N.ltb_spec r (nbits j)) as [L|L]; cbn [andb].
  - destruct (Nat.eqb_spec m i) as [->|Hn].
    + destruct (N.eqb_spec (N.of_nat i * nbits j) (N.of_nat i * nbits j + r)).
      * assert (r = 0) by lia. subst. reflexivity.
      * destruct r; [lia|]. reflexivity.
    + rewrite N.bits_0. apply N.eqb_neq. intros E. apply Hn.
      destruct (Nat.lt_trichotomy m i) as [H|[H|H]]; auto; exfalso.
      * assert (N.of_nat m + 1 <= N.of_nat i) by lia. nia.
      * assert (N.of_nat i + 1 <= N.of_nat m) by lia. nia.
  - destruct (m =? i)%nat; [|now rewrite N.bits_0].
    destruct r; [lia|]. reflexivity.
Qed.

Lemma basis_inr d j i : (i < 2 ^ d)%nat -> inr (d + j) (N.shiftl 1 (N.of_nat i * nbits j)).
Proof.
  intros Hi. rewrite inr_nbits, nbits_add, N.shiftl_1_l. apply N.pow_lt_mono_r; [lia|].
  pose proof (blk_lt i d Hi). pose proof (nbits_pos j). nia.
Qed.

Lemma lin_comb_get d j m : forall cs is, (m < 2 ^ d)%nat ->
  Forall (inr j) cs -> Forall (fun i => (i < 2 ^ d)%nat) is ->
  inr (d + j) (lin_comb (d + j) cs (map (fun i => N.shiftl 1 (N.of_nat i * nbits j)) is)) /\
  tget_base j (lin_comb (d + j) cs (map (fun i => N.shiftl 1 (N.of_nat i * nbits j)) is)) m =
  fold_right (fun '(c, i) acc => tadd (if (m =? i)%nat then c else 0) acc) 0 (combine cs is).
Proof.
  intros cs is Hm. revert is. induction cs as [|c cs IH]; intros is Hc Hi.
  - unfold lin_comb. cbn. split; [apply inr_0|]. unfold tget_base. now rewrite N.shiftr_0_l.
  - destruct is as [|i is].
    + unfold lin_comb. cbn. split; [apply inr_0|]. unfold tget_base. now rewrite N.shiftr_0_l.
    + inversion Hc; inversion Hi; subst. destruct (IH is) as [I E]; auto.
      unfold lin_comb in *. cbn [map combine fold_right].
      assert (inr (d + j) (N.shiftl 1 (N.of_nat i * nbits j))) by now apply basis_inr.
      assert (inr (d + j) c) by (apply (inr_le j); [lia|assumption]).
      split.
      * apply tadd_inr; auto. apply tmul_inr; auto.
      * rewrite tget_base_xor, tget_base_mul_sub, E, (tget_base_pow2 d) by auto.
        f_equal. destruct (m =? i)%nat; [now apply tmul_1_l|now apply tmul_0_l].
Qed.

Lemma select_nth m : forall n s (cs : list N), length cs = n ->
  fold_right (fun '(c, i) acc => tadd (if (m =? i)%nat then c else 0) acc) 0 (combine cs (seq s n))
  = if ((s <=? m)%nat && (m <? s + n)%nat)%bool then nth (m - s) cs 0 else 0.
Proof.
  induction n; intros s cs Hl; destruct cs as [|c cs]; try discriminate.
  - cbn [seq combine fold_right]. destruct (_ && _)%bool; auto. now destruct (m - s)%nat.
  - cbn [seq combine fold_right]. rewrite IHn by (cbn in Hl; lia).
    destruct (Nat.eqb_spec m s).
    + subst. rewrite Nat.leb_refl, (proj2 (Nat.leb_gt (S s) s)) by lia.
      rewrite (proj2 (Nat.ltb_lt s (s + S n))) by lia. rewrite Nat.sub_diag. cbn.
      apply N.lxor_0_r.
    + destruct (Nat.leb_spec (S s) m); destruct (Nat.leb_spec s m); try lia; cbn [andb].
      * replace (s + S n)%nat with (S s + n)%nat by lia.
        destruct (m <? S s + n)%nat; auto.
        replace (m - s)%nat with (S (m - S s)) by lia. cbn. apply N.lxor_0_l.
      * apply N.lxor_0_l.
Qed.

(** Every element is the linear combination of the basis with its coefficients. *)
Theorem tower_basis_expansion d j a : inr (d + j) a ->
  exists basis, length basis = (2 ^ d)%nat /\
    (forall i, (i < 2 ^ d)%nat -> tbasis d j (N.of_nat i) = Some (nth i basis 0)) /\
    a = lin_comb (d + j) (titer_bases d j a) basis.
Proof.
  intros Ha. exists (map (fun i => N.shiftl 1 (N.of_nat i * nbits j)) (seq 0 (2 ^ d))).
  split; [now rewrite map_length, seq_length|]. split.
  - intros i Hi. unfold tbasis. pose proof (blk_lt i d Hi).
    destruct (N.leb_spec (nbits d) (N.of_nat i)); [lia|]. f_equal.
    rewrite nth_indep with (d' := (fun i => N.shiftl 1 (N.of_nat i * nbits j)) O)
      by (rewrite map_length, seq_length; auto).
    rewrite (map_nth (fun i => N.shiftl 1 (N.of_nat i * nbits j))), seq_nth by auto. reflexivity.
  - assert (FA : Forall (inr j) (titer_bases d j a)).
    { apply Forall_forall. intros x Hx. apply in_map_iff in Hx. destruct Hx as [i [<- _]].
      apply tget_base_inr. }
    assert (FS : Forall (fun i => (i < 2 ^ d)%nat) (seq 0 (2 ^ d))).
    { apply Forall_forall. intros x Hx. apply in_seq in Hx. lia. }
    apply (blocks_inj d j); auto.
    + apply (lin_comb_get d j 0); auto. apply Nat.neq_0_lt_0, Nat.pow_nonzero; lia.
    + intros m Hm. rewrite (proj2 (lin_comb_get d j m _ _ Hm FA FS)).
      rewrite select_nth by apply titer_bases_length.
      rewrite Nat.sub_0_r, titer_bases_nth by auto.
      cbn [Nat.leb Nat.add andb]. now rewrite (proj2 (Nat.ltb_lt _ _) Hm).
Qed.

(** Coefficients are linear over the subfield. *)
Theorem tower_coefficients_linear d j a b r i : inr (d + j) a -> inr j r -> (i < 2 ^ d)%nat ->
  tget_base j (tadd a b) i = tadd (tget_base j a i) (tget_base j b i) /\
  tget_base j (tmul (d + j) a (tembed r)) i = tmul j (tget_base j a i) r.
Proof. intros. split; [apply tget_base_xor|now apply tget_base_mul_sub]. Qed.

(** mul_primitive(iota) multiplies with the generator of level iota+1 over level iota, and is an
    error exactly when that generator is not in the field. *)
Theorem tower_mul_primitive k iota a : inr k a ->
  ((iota < k)%nat -> tmul_primitive k iota a = Some (tmul k a (gen iota))) /\
  ((k <= iota)%nat -> tmul_primitive k iota a = None).
Proof.
  intros Ha. rewrite tmul_primitive_spec by auto. unfold gen. split; intros L.
  - now rewrite (proj2 (Nat.ltb_lt _ _) L).
  - now rewrite (proj2 (Nat.ltb_ge _ _) L).
Qed.

Example tower_bases_ex :
  titer_bases 2 1 0xd2 = [2; 0; 1; 3] /\ tfrom_bases 2 1 [2; 0; 1; 3] = Some 0xd2 /\
  tfrom_bases 2 1 [1; 1; 1; 1; 1] = None /\ tfrom_bases_sparse 2 1 [2; 3] 1 = Some 0x32 /\
  tmul_primitive 3 1 0xd2 = Some (tmul 3 0xd2 4) /\ tmul_primitive 3 3 0xd2 = None.
Proof. vm_compute. repeat split; discriminate. Qed.
