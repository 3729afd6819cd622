(** C07 (table-driven small-field arithmetic) and C08 (the AES tower). *)
Require Import Coq.Arith.Arith Coq.NArith.NArith Coq.Lists.List Coq.Bool.Bool Lia.
Require Import Verif.Base.Fld Verif.Base.Bits Verif.Field.Quad Verif.Field.TowerModel
  Verif.Field.TowerProofs Verif.Field.TowerBases Verif.Field.Tables Verif.Field.AesModel
  Verif.Field.TowerProps Verif.Field.AesProofs.
Import ListNotations.
Local Open Scope N_scope.

(** * C07 *)

(** Every table lookup stays in bounds and gives the result of the recursive tower arithmetic. *)
Theorem table_mul_4b a b : inr 2 a -> inr 2 b -> mul_4b a b = Some (tmul 2 a b).
Proof. exact (mul_4b_ok a b). Qed.

Theorem table_mul_2b a b : inr 1 a -> inr 1 b -> mul_4b a b = Some (tmul 1 a b).
Proof.
  intros Ha Hb. rewrite mul_4b_ok by (apply inr_S; auto). f_equal.
  apply (tmul_small 1 2); auto.
Qed.

Theorem table_mul_8b a b : inr 3 a -> inr 3 b -> mul_8b_table a b = Some (tmul 3 a b).
Proof. exact (mul_8b_ok a b). Qed.

Theorem table_unary_8b a : inr 3 a ->
  square_8b_table a = Some (tmul 3 a a) /\
  mul_alpha_8b_table a = Some (tmul 3 a (gen 2)) /\
  invert_8b_table a = Some (tinv 3 a).
Proof.
  intros Ha. rewrite square_8b_ok, mul_alpha_8b_ok, invert_8b_ok, tsquare_spec by auto.
  repeat split. f_equal. now apply (proj2 (tower_mul_alpha a) 2%nat).
Qed.

(** The 8-bit inversion table also serves the 2- and 4-bit fields. *)
Theorem table_invert_small j a : (j <= 3)%nat -> inr j a -> invert_8b_table a = Some (tinv j a).
Proof.
  intros Hj Ha. rewrite invert_8b_ok by (apply (inr_le j); auto). f_equal.
  destruct (tower_embedding j 3 Hj) as [_ [_ [_ [_ [_ [_ H]]]]]]. symmetry. now apply H.
Qed.

Example table_ex : mul_8b_table 0xd2 0x9f = Some (tmul 3 0xd2 0x9f) /\ mul_4b 0xd 0x7 = Some (tmul 2 0xd 0x7)
  /\ invert_8b_table 0xd2 = Some (tinv 3 0xd2) /\ inr 3 0xd2 /\ tmul 3 0xd2 0x9f <> 0.
Proof. vm_compute. repeat split; discriminate. Qed.

(** * C08 *)

(** Specification of GF(2)[x]/(x^8+x^4+x^3+x+1): shift-and-reduce, then schoolbook product. *)
Definition xtime (a : N) : N :=
  let s := N.shiftl a 1 in if N.testbit s 8 then N.lxor s 0x11b else s.
Fixpoint poly_mul_aux (n : nat) (a b : N) : N :=
  match n with
  | O => 0
  | S n => N.lxor (if N.odd b then a else 0) (poly_mul_aux n (xtime a) (N.div2 b))
  end.
Definition aes_poly_mul (a b : N) : N := poly_mul_aux 8 a b.

Lemma xtime_inr a : inr 3 a -> inr 3 (xtime a).
Proof.
  intros Ha. sweep 256%nat (fun x => xtime x <? 256). apply N.ltb_lt. now apply H0.
Qed.

Lemma xtime_ok a : inr 3 a -> aes_to_bin_8b (xtime a) = tmul 3 (aes_to_bin_8b a) (aes_to_bin_8b 2).
Proof.
  intros Ha.
  sweep 256%nat (fun x => aes_to_bin_8b (xtime x) =? tmul 3 (aes_to_bin_8b x) (aes_to_bin_8b 2)).
  apply N.eqb_eq. now apply H0.
Qed.

Fixpoint evalp (n : nat) (r b : N) : N :=
  match n with O => 0 | S n => tadd (if N.odd b then 1 else 0) (tmul 3 r (evalp n r (N.div2 b))) end.

Lemma evalp_inr n r b : inr 3 r -> inr 3 (evalp n r b).
Proof.
  intros Hr. revert b; induction n; intros b; cbn [evalp]; [apply inr_0|].
  apply tadd_inr; [destruct (N.odd b); auto using inr_0, inr_1|]. now apply tmul_inr.
Qed.

Lemma poly_mul_ok : forall n a b, inr 3 a ->
  inr 3 (poly_mul_aux n a b) /\
  aes_to_bin_8b (poly_mul_aux n a b) = tmul 3 (aes_to_bin_8b a) (evalp n (aes_to_bin_8b 2) b).
Proof.
  assert (H2 : inr 3 (aes_to_bin_8b 2)) by (apply a2b_inr; reflexivity).
  induction n; intros a b Ha; cbn [poly_mul_aux evalp].
  - split; [apply inr_0|]. rewrite tmul_comm, tmul_0_l; auto using a2b_inr, inr_0.
  - destruct (IHn (xtime a) (N.div2 b) (xtime_inr a Ha)) as [I E].
    change N.lxor with tadd.
    assert (Io : inr 3 (if N.odd b then a else 0)) by (destruct (N.odd b); auto using inr_0).
    split; [now apply tadd_inr|].
    rewrite a2b_lin, E, xtime_ok by auto.
    pose proof (a2b_inr a Ha) as Hp. pose proof (evalp_inr n _ (N.div2 b) H2) as Hv.
    set (r := aes_to_bin_8b 2) in *. set (v := evalp n r (N.div2 b)) in *.
    assert (Iob : inr 3 (if N.odd b then 1 else 0)) by (destruct (N.odd b); auto using inr_0, inr_1).
    rewrite (tmul_comm 3 _ (tadd _ _)) by auto using tadd_inr, tmul_inr.
    rewrite tmul_distr by auto using tmul_inr. f_equal.
    + destruct (N.odd b); [symmetry; now apply tmul_1_l|rewrite tmul_0_l; auto].
    + rewrite (tmul_comm 3 (tmul 3 r v)) by auto using tmul_inr. symmetry. now apply tmul_assoc.
Qed.

Lemma evalp_8 b : inr 3 b -> evalp 8 (aes_to_bin_8b 2) b = aes_to_bin_8b b.
Proof.
  intros Ha. sweep 256%nat (fun b => evalp 8 (aes_to_bin_8b 2) b =? aes_to_bin_8b b).
  apply N.eqb_eq. now apply H0.
Qed.

Lemma a2b_inj a b : inr 3 a -> inr 3 b -> aes_to_bin_8b a = aes_to_bin_8b b -> a = b.
Proof. intros Ha Hb E. rewrite <- (b2a_a2b a Ha), <- (b2a_a2b b Hb). now rewrite E. Qed.

(** The 8-bit AES field multiplies as polynomials modulo the AES polynomial. *)
Theorem aes_8b_is_rijndael a b : inr 3 a -> inr 3 b -> aes_mul_8b a b = Some (aes_poly_mul a b).
Proof.
  intros Ha Hb. destruct (aes_mul_8b_ok a b Ha Hb) as [c [E [I C]]]. rewrite E. f_equal.
  destruct (poly_mul_ok 8 a b Ha) as [J D]. apply a2b_inj; auto.
  unfold aes_poly_mul. rewrite D, C, evalp_8 by auto. reflexivity.
Qed.

(** All AES tables are total on bytes (no out-of-bounds lookups). *)
Theorem aes_tables_total a b : inr 3 a -> inr 3 b ->
  aes_mul_8b a b <> None /\ aes_square_8b a <> None /\ aes_mul_alpha_8b a <> None /\
  aes_invert_8b a <> None.
Proof.
  intros Ha Hb.
  destruct (aes_mul_8b_ok a b Ha Hb) as [c1 [E1 _]]. destruct (aes_square_8b_ok a Ha) as [c2 [E2 _]].
  destruct (aes_mul_alpha_8b_ok a Ha) as [c3 [E3 _]]. destruct (aes_invert_8b_ok a Ha) as [c4 [E4 _]].
  rewrite E1, E2, E3, E4. repeat split; discriminate.
Qed.

(** Conversion AES tower -> binary tower is a ring isomorphism at every level, with the other
    conversion as its inverse; all AES operations are transported exactly. *)
Theorem aes_isomorphism d :
  (forall a, inr (d + 3) a -> inr (d + 3) (aes_to_bin d a) /\ inr (d + 3) (bin_to_aes d a)) /\
  (forall a, inr (d + 3) a -> bin_to_aes d (aes_to_bin d a) = a) /\
  (forall a, inr (d + 3) a -> aes_to_bin d (bin_to_aes d a) = a) /\
  aes_to_bin d 0 = 0 /\ aes_to_bin d 1 = 1 /\
  (forall a b, aes_to_bin d (tadd a b) = tadd (aes_to_bin d a) (aes_to_bin d b)) /\
  (forall a b, inr (d + 3) a -> inr (d + 3) b ->
     inr (d + 3) (amul d a b) /\
     aes_to_bin d (amul d a b) = tmul (d + 3) (aes_to_bin d a) (aes_to_bin d b)) /\
  (forall a, inr (d + 3) a ->
     inr (d + 3) (asquare d a) /\ asquare d a = amul d a a) /\
  (forall a, inr (d + 3) a ->
     inr (d + 3) (amul_alpha d a) /\ 
     aes_to_bin d (amul_alpha d a) = tmul (d + 3) (aes_to_bin d a) (gen (d + 2))) /\
  (forall a, inr (d + 3) a ->
     inr (d + 3) (ainv d a) /\ aes_to_bin d (ainv d a) = tinv (d + 3) (aes_to_bin d a)).
Proof.
  assert (R : forall a, inr (d + 3) a -> bin_to_aes d (aes_to_bin d a) = a).
  { intros. apply map_lanes_inv; auto using a2b_inr, b2a_a2b. }
  split; [intros; split; [now apply a2b_map_inr|now apply b2a_map_inr]|].
  split; [exact R|].
  split; [intros; apply map_lanes_inv; auto using b2a_inr, a2b_b2a|].
  split.
  { clear. induction d; [reflexivity|]. unfold aes_to_bin in *. cbn [tmap_lanes].
    rewrite lo_small, hi_small, IHd by apply inr_0. reflexivity. }
  split.
  { clear. assert (Z : forall d, aes_to_bin d 0 = 0).
    { clear. induction d; [reflexivity|]. unfold aes_to_bin in *. cbn [tmap_lanes].
      rewrite lo_small, hi_small, IHd by apply inr_0. reflexivity. }
    induction d; [reflexivity|]. unfold aes_to_bin in *. cbn [tmap_lanes].
    rewrite lo_small, hi_small, IHd, Z by apply inr_1. reflexivity. }
  split; [apply a2b_map_lin|].
  split; [apply amul_ok|].
  split.
  { intros a Ha. destruct (asquare_ok d a Ha) as [I E]. split; auto.
    destruct (amul_ok d a a Ha Ha) as [J F].
    rewrite <- (R _ I), <- (R _ J), E, F. f_equal. apply tsquare_spec. now apply a2b_map_inr. }
  split.
  { intros a Ha. destruct (amul_alpha_ok d a Ha) as [I E]. split; auto. rewrite E.
    replace (d + 3)%nat with (S (d + 2)) by lia. apply tower_mul_alpha.
    replace (S (d + 2)) with (d + 3)%nat by lia. now apply a2b_map_inr. }
  apply ainv_ok.
Qed.

(** Consequently the AES tower is a field: for instance every nonzero element is inverted. *)
Theorem aes_inverse d a : inr (d + 3) a ->
  (a = 0 -> ainv d a = 0) /\ (a <> 0 -> amul d a (ainv d a) = 1).
Proof.
  intros Ha. destruct (aes_isomorphism d) as [HI [R [_ [Z0 [Z1 [_ [M [_ [_ V]]]]]]]]].
  destruct (V a Ha) as [Iv Ev]. split.
  - intros ->. rewrite <- (R _ Iv), Ev, Z0, tinv_0, <- Z0 at 1. apply R. apply inr_0.
  - intros Hz. destruct (M a (ainv d a)) as [Im Em]; auto.
    rewrite <- (R _ Im), Em, Ev, tinv_mul.
    + rewrite <- Z1 at 1. apply R. apply inr_1.
    + now apply HI.
    + intros E. apply Hz. rewrite <- (R a Ha), E, <- Z0 at 1. apply R. apply inr_0.
Qed.

Lemma map_lanes_nest f i j : forall e a,
  tmap_lanes (tmap_lanes f i j) e (i + j) a = tmap_lanes f (e + i) j a.
Proof.
  induction e; intros a; cbn [tmap_lanes Nat.add]; auto.
  now rewrite !IHe, Nat.add_assoc.
Qed.

Lemma map_lanes_commute c f g d j : (forall x, inr j x -> inr j (c x)) -> (forall x, inr j x -> inr j (f x)) ->
  (forall x, inr j x -> inr j (g x)) ->
  (forall x, inr j x -> c (f x) = g (c x)) ->
  forall a, inr (d + j) a -> tmap_lanes c d j (tmap_lanes f d j a) = tmap_lanes g d j (tmap_lanes c d j a).
Proof.
  intros Hc Hf Hg H. induction d; intros a Ha; cbn [tmap_lanes]; auto.
  pose proof (lo_inr (d + j) a) as L. pose proof (hi_inr (d + j) a) as K.
  rewrite !lo_join, !hi_join by (apply tmap_lanes_inr; auto).
  now rewrite !IHd by auto.
Qed.

(** mul_primitive in the AES tower corresponds to mul_primitive in the binary tower. *)
Theorem aes_mul_primitive d iota a : inr (d + 3) a ->
  option_map (aes_to_bin d) (amul_primitive d iota a) = tmul_primitive (d + 3) iota (aes_to_bin d a).
Proof.
  intros Ha. pose proof (a2b_map_inr d a Ha) as Ia.
  assert (Small : forall i al, (i < 3)%nat -> inr 3 al -> aes_to_bin_8b al = gen i ->
    Some (aes_to_bin d (tmap_lanes (fun x => amul 0 x al) d 3 a)) =
    tmul_primitive (d + 3) i (aes_to_bin d a)).
  { intros i al Hi Hal Hg.
    rewrite (proj1 (tower_mul_primitive (d + 3) i (aes_to_bin d a) Ia)) by lia. f_equal.
    assert (Ig : inr 3 (gen i)) by (rewrite <- Hg; now apply a2b_inr).
    unfold aes_to_bin.
    rewrite (map_lanes_commute aes_to_bin_8b _ (fun y => tmul 3 y (gen i))); auto using a2b_inr.
    - rewrite <- tmul_sub_map. now apply tmul_sub_spec.
    - intros x Hx. now apply (amul_ok 0).
    - intros; now apply tmul_inr.
    - intros x Hx. rewrite <- Hg. now apply (amul_ok 0). }
  destruct iota as [|[|i]]; cbn [amul_primitive option_map nth ISOMORPHIC_ALPHAS].
  - apply Small; [lia|reflexivity|reflexivity].
  - apply Small; [lia|reflexivity|reflexivity].
  - destruct (Nat.leb_spec i d) as [L|L]; cbn [option_map].
    + rewrite (proj1 (tower_mul_primitive (d + 3) (S (S i)) _ Ia)) by lia. f_equal.
      assert (Ed : d = (d - i + i)%nat) by lia.
      assert (Ia' : inr (d - i + (i + 3)) a) by (replace (d - i + (i + 3))%nat with (d + 3)%nat by lia; auto).
      assert (E : forall x, aes_to_bin d x = tmap_lanes (aes_to_bin i) (d - i) (i + 3) x).
      { intros x. unfold aes_to_bin. rewrite map_lanes_nest. now rewrite <- Ed. }
      rewrite !E.
      rewrite (map_lanes_commute (aes_to_bin i) _ (tmul_alpha (i + 3))); auto.
      * rewrite <- !E.
        replace (i + 3)%nat with (S (i + 2)) by lia.
        rewrite tmul_alpha_lanes.
        -- replace (d - i + S (i + 2))%nat with (d + 3)%nat by lia.
           replace (S (S i)) with (i + 2)%nat by lia. reflexivity.
        -- replace (d - i + S (i + 2))%nat with (d + 3)%nat by lia. auto.
      * apply a2b_map_inr.
      * intros; now apply amul_alpha_ok.
      * intros; now apply tmul_alpha_inr.
      * intros; now apply amul_alpha_ok.
    + symmetry. apply tower_mul_primitive; auto. lia.
Qed.

Theorem aes_min_level a : inr 3 a -> (aes_min_level_8b a = 0%nat <-> inr 0 (aes_to_bin_8b a)).
Proof.
  intros Ha. unfold aes_min_level_8b.
  sweep 256%nat (fun a => Bool.eqb (Nat.eqb (if (a =? 0) || (a =? 1) then 0%nat else 3%nat) 0)
     (aes_to_bin_8b a <? 2)).
  specialize (H0 a Ha). clear H. apply eqb_prop in H0. remember (aes_to_bin_8b a) as v eqn:Ev. clear Ev.
  destruct ((a =? 0) || (a =? 1))%bool; cbn in H0; symmetry in H0; split; auto; try discriminate.
  - intros _. now apply N.ltb_lt in H0.
  - intros I. apply N.ltb_ge in H0. unfold inr in I. cbn in I. lia.
Qed.

(** is_aes_tower is meant to tell AES tower fields from the others; it answers true for every
    field type. *)
Theorem is_aes_tower_refuted : exists F, (forall l, F <> TagAes l) /\ is_aes_tower F = true.
Proof. exists (TagBinary 7). split; [discriminate|reflexivity]. Qed.

Example aes_ex :
  aes_poly_mul 0x57 0x83 = 0xc1 /\ aes_mul_8b 0x57 0x83 = Some 0xc1 /\
  amul 4 (2 ^ 127 + 5) (ainv 4 (2 ^ 127 + 5)) = 1 /\ amul_primitive 1 3 0x1234 <> None /\
  amul_primitive 1 4 0x1234 = None.
Proof. vm_compute. repeat split; discriminate. Qed.
