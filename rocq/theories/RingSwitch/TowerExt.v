(** The tower fields are extensions of their subfields: level [d + j] over level [j], with the coordinates of get_base and the
    basis of ExtensionField::basis (binary_field.rs 600-656, Field/TowerModel.v tget_base, tbasis). *)
Require Import Coq.Arith.Arith Coq.NArith.NArith Coq.Lists.List Coq.Bool.Bool Coq.setoid_ring.Ring Lia.
From Verif Require Import Base.Fld Base.Sums Base.NatBits RingSwitch.TensorModel Field.TowerModel Field.TowerProofs Field.TowerBases Field.TowerProps.
Import ListNotations.
Local Open Scope nat_scope.

Section Tower.
  Variable d j : nat.
  Notation K := (TF (d + j)).
  Notation dc := (dec (d + j)).
  Notation en := (enc (d + j)).
  Local Open Scope fld_scope.
  Add Ring Kring : (f_ring K).
  (** the coordinates and the basis, on the bit representation *)
  Definition tco (i : nat) (x : K) : K := dc (tget_base j (en x) i).
  Definition tbeta (i : nat) : K := dc (N.shiftl 1 (N.of_nat i * nbits j)).
  Definition tin (x : K) : Prop := inr j (en x).

  Lemma enc_add x y : en (x + y) = tadd (en x) (en y).
  Proof. apply (dec_inj (d + j)); [apply enc_inr|apply tadd_inr; apply enc_inr|]. now rewrite dec_enc, dec_add, !dec_enc. Qed.
  Lemma enc_mul x y : en (x * y) = tmul (d + j) (en x) (en y).
  Proof. apply (dec_inj (d + j)); [apply enc_inr|apply tmul_inr; apply enc_inr|]. rewrite dec_mul by apply enc_inr. now rewrite !dec_enc. Qed.
  Lemma jk a : inr j a -> inr (d + j) a. Proof. apply inr_le. lia. Qed.
  Lemma tco_add i x y : tco i (x + y) = tco i x + tco i y.
  Proof. unfold tco. now rewrite enc_add, tget_base_xor, dec_add. Qed.
  Lemma tco_in i x : tin (tco i x).
  Proof. unfold tin, tco. rewrite enc_dec; [apply tget_base_inr|apply jk, tget_base_inr]. Qed.
  Lemma tco_smul i s x : (i < 2 ^ d)%nat -> tin s -> tco i (s * x) = s * tco i x.
  Proof.
    intros Hi Hs. unfold tco. rewrite enc_mul, (tmul_comm (d + j)) by apply enc_inr. rewrite tget_base_mul_sub by (auto using enc_inr).
    rewrite <- (tmul_small j (d + j)) by (auto using tget_base_inr; lia). rewrite dec_mul by (auto using enc_inr, jk, tget_base_inr). rewrite dec_enc. ring.
  Qed.
  Lemma tco_beta i k : (i < 2 ^ d)%nat -> (k < 2 ^ d)%nat -> tco k (tbeta i) = if (k =? i)%nat then 1 else 0.
  Proof.
    intros Hi Hk. unfold tco, tbeta. rewrite enc_dec by (now apply basis_inr).
    assert (X : tget_base j (N.shiftl 1 (N.of_nat i * nbits j)) k = if (k =? i)%nat then 1%N else 0%N).
    { apply N.bits_inj. intros r. rewrite tget_base_bit. pose proof (nbits_pos j) as P. destruct (N.ltb_spec r (nbits j)) as [L|L]; cbn [andb].
      - rewrite N.shiftl_1_l, N.pow2_bits_eqb. destruct (Nat.eqb_spec k i) as [->|N].
        + destruct (N.eqb_spec (N.of_nat i * nbits j) (N.of_nat i * nbits j + r)) as [e|e].
          * assert (r = 0%N) by lia. subst. reflexivity.
          * destruct r; [lia|]. reflexivity.
        + rewrite N.bits_0. apply N.eqb_neq. intros e. apply N. destruct (Nat.lt_trichotomy k i) as [H|[H|H]]; auto; exfalso.
          * assert (N.of_nat k + 1 <= N.of_nat i)%N by lia. nia.
          * assert (N.of_nat i + 1 <= N.of_nat k)%N by lia. nia.
      - destruct (k =? i)%nat; [|symmetry; apply N.bits_0]. destruct r; [lia|reflexivity]. }
    rewrite X. destruct (k =? i)%nat; [apply dec_1|apply dec_0].
  Qed.
  Lemma tco_0 i : tco i 0 = 0.
  Proof. assert (H := tco_add i 0 0). replace (0 + 0) with (0 : K) in H by ring. transitivity (tco i 0 + tco i 0 - tco i 0); [ring|]. rewrite <- H. ring. Qed.
  Lemma tco_ext x y : (forall i, (i < 2 ^ d)%nat -> tco i x = tco i y) -> x = y.
  Proof.
    intros H. apply (enc_inj (d + j)). apply (blocks_inj d j); try apply enc_inr. intros i Hi. apply (dec_inj (d + j)); try apply jk, tget_base_inr. now apply H.
  Qed.
  Lemma tco_sum x : sumn (2 ^ d)%nat (fun i => tco i x * tbeta i) = x.
  Proof.
    apply tco_ext. intros k Hk.
    assert (S : forall n, (n <= 2 ^ d)%nat -> tco k (sumn n (fun i => tco i x * tbeta i)) = sumn n (fun i => tco i x * (if (k =? i)%nat then 1 else 0))).
    { induction n as [|n IH]; intros Hn; [rewrite !sumn_0; apply tco_0|]. rewrite !sumn_S, tco_add, IH by lia. f_equal. rewrite tco_smul by (auto using tco_in; lia). rewrite tco_beta by lia. reflexivity. }
    rewrite S by lia. rewrite (sumn_single K (2 ^ d)%nat k); [rewrite Nat.eqb_refl; ring|exact Hk|]. intros i Hi Hne. rewrite (proj2 (Nat.eqb_neq k i)) by auto. ring.
  Qed.
  Lemma tbeta_0 : tbeta 0 = 1. Proof. unfold tbeta. rewrite N.mul_0_l. apply dec_1. Qed.

End Tower.

(** The same for a level [L] and any [kappa <= L]. *)
Section Level.
  Variable L kappa : nat.
  Hypothesis H : kappa <= L.
  Notation j := (L - kappa).
  Definition lco (i : nat) (x : TF L) : TF L := dec L (tget_base j (enc L x) i).
  Definition lbeta (i : nat) : TF L := dec L (N.shiftl 1 (N.of_nat i * nbits j)).
  Definition lin (x : TF L) : Prop := inr j (enc L x).
  Lemma level_ext : lbeta 0 = f1 /\ (forall i x, i < 2 ^ kappa -> lin (lco i x)) /\ (forall i x y, i < 2 ^ kappa -> lco i (x + y)%F = (lco i x + lco i y)%F) /\
    (forall i s x, i < 2 ^ kappa -> lin s -> lco i (s * x)%F = (s * lco i x)%F) /\
    (forall i k, i < 2 ^ kappa -> k < 2 ^ kappa -> lco k (lbeta i) = if k =? i then f1 else f0) /\
    (forall x, sumn (2 ^ kappa) (fun i => lco i x * lbeta i)%F = x).
  Proof.
    unfold lco, lbeta, lin. remember (L - kappa) as m. assert (E : L = kappa + m) by lia. clear Heqm H. subst L.
    split; [exact (tbeta_0 kappa m)|]. split; [intros i x _; exact (tco_in kappa m i x)|]. split; [intros i x y _; exact (tco_add kappa m i x y)|].
    split; [exact (tco_smul kappa m)|]. split; [exact (tco_beta kappa m)|exact (tco_sum kappa m)].
  Qed.
  Definition tower_ext : ext (TF L) kappa :=
    let A := level_ext in
    mkExt (TF L) kappa lin lco lbeta (proj1 A) (proj1 (proj2 A)) (proj1 (proj2 (proj2 A))) (proj1 (proj2 (proj2 (proj2 A))))
      (proj1 (proj2 (proj2 (proj2 (proj2 A))))) (proj2 (proj2 (proj2 (proj2 (proj2 A))))).
End Level.
