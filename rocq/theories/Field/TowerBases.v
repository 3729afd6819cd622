(** Extension bases: proofs about from_bases, iter_bases, get_base, min_tower_level,
    mul_primitive and multiplication by one bit. *)
Require Import Coq.NArith.NArith Coq.Lists.List Coq.Bool.Bool Coq.micromega.Lia Coq.Arith.PeanoNat.
Require Import Verif.Base.Fld Verif.Base.Bits Verif.Field.Quad Verif.Field.TowerModel
  Verif.Field.TowerProofs.
Import ListNotations.
Local Open Scope N_scope.

Lemma from_bases_loop_bits total st : forall l n value,
  0 < st ->
  Forall (fun e => e < 2 ^ st) l ->
  value < 2 ^ (n * st) ->
  (n + N.of_nat (length l)) * st <= total ->
  exists v, from_bases_loop total st l value (n * st) = Some v /\
    forall q r, r < st ->
      N.testbit v (q * st + r) =
      if q <? n then N.testbit value (q * st + r) else N.testbit (nth (N.to_nat (q - n)) l 0) r.
Proof.
  induction l as [|e l IH]; intros n value Hst Hl Hv Hlen; cbn [from_bases_loop].
  - exists value. split; auto. intros q r Hr. destruct (N.ltb_spec q n); auto.
    destruct (N.to_nat (q - n)); simpl; rewrite ?N.bits_0; apply (testbit_high _ _ _ Hv); nia.
  - inversion Hl; subst. cbn [length] in Hlen. rewrite Nat2N.inj_succ in Hlen.
    rewrite (proj2 (N.leb_gt _ _)) by nia.
    replace (n * st + st) with ((n + 1) * st) by lia.
    destruct (IH (n + 1) (N.lor value (N.shiftl e (n * st)))) as [v [E B]]; auto.
    + apply bits_lt. intros i Hi. rewrite N.lor_spec, testbit_shiftl.
      rewrite (testbit_high _ _ _ Hv) by nia.
      rewrite (testbit_high _ _ (i - n * st) H1) by nia. now rewrite andb_false_r.
    + nia.
    + exists v. split; auto. intros q r Hr. rewrite B by auto.
      destruct (N.ltb_spec q n).
      * rewrite (proj2 (N.ltb_lt _ _)) by lia. rewrite N.lor_spec, testbit_shiftl.
        rewrite (proj2 (N.leb_gt _ _)) by nia. apply orb_false_r.
      * destruct (N.ltb_spec q (n + 1)).
        -- assert (q = n) by lia. subst q. rewrite N.sub_diag. cbn [N.to_nat nth].
           rewrite N.lor_spec, testbit_shiftl, (proj2 (N.leb_le _ _)) by nia.
           rewrite (testbit_high _ _ _ Hv) by nia. simpl. f_equal. lia.
        -- replace (N.to_nat (q - n)) with (S (N.to_nat (q - (n + 1)))) by lia. reflexivity.
Qed.

Lemma from_bases_loop_long total st : forall l n value,
  0 < st ->
  total < (n + N.of_nat (length l)) * st ->
  n * st <= total -> (exists m, total = m * st) ->
  from_bases_loop total st l value (n * st) = None.
Proof.
  induction l as [|e l IH]; intros n value Hst Hlen Hn [m ->]; cbn [from_bases_loop].
  - cbn in Hlen. nia.
  - cbn [length] in Hlen. rewrite Nat2N.inj_succ in Hlen.
    destruct (N.leb_spec (m * st) (n * st)); auto.
    replace (n * st + st) with ((n + 1) * st) by lia. apply IH; auto; [nia | | now exists m].
    assert (n < m) by nia. nia.
Qed.

Lemma nbits_add d j : nbits (d + j) = nbits d * nbits j.
Proof. rewrite !nbits_pow, Nat2N.inj_add. apply N.pow_add_r. Qed.

Lemma nbits_nat d : N.of_nat (2 ^ d) = nbits d.
Proof. rewrite nbits_pow, Nat2N.inj_pow. reflexivity. Qed.

Lemma nbits_mono a b : (a <= b)%nat -> nbits a <= nbits b.
Proof. rewrite !nbits_pow. intros. apply N.pow_le_mono_r; lia. Qed.

Lemma nbits_lt a b : (a < b)%nat -> nbits a < nbits b.
Proof. rewrite !nbits_pow. intros. apply N.pow_lt_mono_r; lia. Qed.

Lemma sparse_step d j s : (s < d)%nat ->
  N.land (N.shiftl (nbits j) (N.of_nat s)) (nbits (d + j) - 1) = nbits (s + j).
Proof.
  intros H. replace (nbits (d + j) - 1) with (N.ones (N.of_nat (d + j))).
  2:{ rewrite N.ones_equiv, nbits_pow. lia. }
  rewrite N.land_ones, <- nbits_pow, N.shiftl_mul_pow2.
  rewrite <- nbits_pow, N.mul_comm, <- nbits_add.
  apply N.mod_small. apply nbits_lt. lia.
Qed.

Lemma tget_base_bit j a i r :
  N.testbit (tget_base j a i) r = ((r <? nbits j) && N.testbit a (N.of_nat i * nbits j + r))%bool.
Proof.
  unfold tget_base. rewrite trunc_bit, testbit_shiftr, andb_comm. f_equal. f_equal. lia.
Qed.

Lemma tget_base_inr j a i : inr j (tget_base j a i).
Proof. apply trunc_inr. Qed.

(** Blocks determine the value. *)
Lemma blocks_inj d j a b : inr (d + j) a -> inr (d + j) b ->
  (forall i, (i < 2 ^ d)%nat -> tget_base j a i = tget_base j b i) -> a = b.
Proof.
  intros Ha Hb H. apply N.bits_inj. intros p.
  destruct (N.lt_ge_cases p (nbits (d + j))) as [L|L].
  2:{ rewrite (proj1 (inr_bits _ a) Ha), (proj1 (inr_bits _ b) Hb); auto. }
  set (q := p / nbits j). set (r := p mod nbits j).
  assert (P := nbits_pos j).
  assert (E : p = N.of_nat (N.to_nat q) * nbits j + r).
  { rewrite N2Nat.id. unfold q, r. rewrite N.mul_comm. apply N.div_mod. lia. }
  assert (R : r < nbits j) by (apply N.mod_lt; lia).
  assert (Q : (N.to_nat q < 2 ^ d)%nat).
  { rewrite nbits_add in L. assert (q < nbits d) by (apply N.div_lt_upper_bound; lia).
    rewrite <- nbits_nat in H0. lia. }
  assert (X := H (N.to_nat q) Q).
  apply (f_equal (fun z => N.testbit z r)) in X. rewrite !tget_base_bit in X.
  rewrite (proj2 (N.ltb_lt _ _) R), <- E in X. exact X.
Qed.

Lemma tfrom_bases_sparse_ok d j s l : (s < d)%nat ->
  Forall (inr j) l -> (length l <= 2 ^ (d - s))%nat ->
  exists v, tfrom_bases_sparse d j l s = Some v /\ inr (d + j) v /\
    forall i, (i < 2 ^ d)%nat ->
      tget_base j v i =
      if (i mod 2 ^ s =? 0)%nat then nth (i / 2 ^ s) l 0 else 0.
Proof.
  intros Hs Hl Hlen. unfold tfrom_bases_sparse. rewrite sparse_step by auto.
  assert (Hl' : Forall (fun e => e < 2 ^ nbits (s + j)) l).
  { eapply Forall_impl; [|exact Hl]. intros e He. apply inr_nbits. apply (inr_le j); auto; lia. }
  assert (Hd : nbits (d - s) * nbits (s + j) = nbits (d + j)).
  { rewrite <- nbits_add. f_equal. lia. }
  assert (Hlen' : N.of_nat (length l) <= nbits (d - s)).
  { rewrite <- nbits_nat. lia. }
  assert (Pos := nbits_pos (s + j)). assert (Posj := nbits_pos j).
  destruct (from_bases_loop_bits (nbits (d + j)) (nbits (s + j)) l 0 0) as [v [E B]]; auto.
  - simpl. nia.
  - exists v. simpl in E. split; [exact E|].
    assert (Bv : inr (d + j) v).
    { apply inr_bits. intros p Hp.
      assert (Ep : p = p / nbits (s + j) * nbits (s + j) + p mod nbits (s + j)).
      { rewrite (N.mul_comm (p / nbits (s + j))). apply N.div_mod. lia. }
      rewrite Ep. rewrite B by (apply N.mod_lt; lia).
      rewrite (proj2 (N.ltb_ge _ _)) by apply N.le_0_l.
      rewrite nth_overflow; [apply N.bits_0|].
      assert (nbits (d - s) <= p / nbits (s + j)) by (apply N.div_le_lower_bound; lia). lia. }
    split; auto. intros i Hi. apply N.bits_inj. intros r. rewrite tget_base_bit.
    destruct (N.ltb_spec r (nbits j)) as [Hr|Hr]; simpl.
    2:{ symmetry. destruct (_ =? _)%nat; [|apply N.bits_0].
        destruct (Nat.lt_ge_cases (i / 2 ^ s) (length l)) as [L|L].
        - assert (X : inr j (nth (i / 2 ^ s) l 0))
            by (eapply Forall_forall; [exact Hl | now apply nth_In]).
          now apply (proj1 (inr_bits _ _) X).
        - rewrite nth_overflow by auto. apply N.bits_0. }
    assert (S0 : (2 ^ s <> 0)%nat) by (apply Nat.pow_nonzero; lia).
    assert (Ei := Nat.div_mod i (2 ^ s) S0).
    assert (Mi := Nat.mod_upper_bound i (2 ^ s) S0).
    set (q := (i / 2 ^ s)%nat) in *. set (m := (i mod 2 ^ s)%nat) in *.
    assert (Es : nbits (s + j) = N.of_nat (2 ^ s) * nbits j) by now rewrite nbits_nat, nbits_add.
    replace (N.of_nat i * nbits j + r) with (N.of_nat q * nbits (s + j) + (N.of_nat m * nbits j + r)).
    2:{ rewrite Es, Ei. nia. }
    rewrite B by (rewrite Es; nia).
    rewrite (proj2 (N.ltb_ge _ _)) by apply N.le_0_l. rewrite N.sub_0_r, Nat2N.id.
    destruct (Nat.eqb_spec m 0) as [E0|E0].
    + rewrite E0. reflexivity.
    + rewrite N.bits_0.
      destruct (Nat.lt_ge_cases q (length l)) as [L|L].
      * assert (X : inr j (nth q l 0))
          by (eapply Forall_forall; [exact Hl | now apply nth_In]).
        apply (proj1 (inr_bits _ _) X). nia.
      * rewrite nth_overflow by auto. apply N.bits_0.
Qed.

Lemma tfrom_bases_sparse_long d j s l : (s < d)%nat ->
  (2 ^ (d - s) < length l)%nat -> tfrom_bases_sparse d j l s = None.
Proof.
  intros Hs Hlen. unfold tfrom_bases_sparse. rewrite sparse_step by auto.
  assert (Hd : nbits (d - s) * nbits (s + j) = nbits (d + j)).
  { rewrite <- nbits_add. f_equal. lia. }
  assert (Pos := nbits_pos (s + j)).
  replace 0 with (0 * nbits (s + j)) at 2 by lia.
  apply from_bases_loop_long; auto; try lia.
  - assert (nbits (d - s) < N.of_nat (length l)) by (rewrite <- nbits_nat; lia). nia.
  - exists (nbits (d - s)). auto.
Qed.

Lemma tfrom_bases_ok d j l : (0 < d)%nat -> Forall (inr j) l -> (length l <= 2 ^ d)%nat ->
  exists v, tfrom_bases d j l = Some v /\ inr (d + j) v /\
    forall i, (i < 2 ^ d)%nat -> tget_base j v i = nth i l 0.
Proof.
  intros Hd Hl Hlen.
  destruct (tfrom_bases_sparse_ok d j 0 l) as [v [E [I B]]]; auto.
  { now rewrite Nat.sub_0_r. }
  exists v. split; [exact E|]. split; auto. intros i Hi. rewrite B by auto.
  rewrite Nat.pow_0_r, Nat.mod_1_r, Nat.div_1_r. reflexivity.
Qed.

Lemma titer_bases_nth d j a i : (i < 2 ^ d)%nat -> nth i (titer_bases d j a) 0 = tget_base j a i.
Proof.
  intros H. unfold titer_bases.
  rewrite (nth_indep _ 0 (tget_base j a 0)) by (now rewrite map_length, seq_length).
  rewrite map_nth, seq_nth by auto. reflexivity.
Qed.

Lemma titer_bases_length d j a : length (titer_bases d j a) = (2 ^ d)%nat.
Proof. unfold titer_bases. now rewrite map_length, seq_length. Qed.

Lemma tfrom_iter_bases d j a : (0 < d)%nat -> inr (d + j) a ->
  tfrom_bases d j (titer_bases d j a) = Some a.
Proof.
  intros Hd Ha.
  destruct (tfrom_bases_ok d j (titer_bases d j a)) as [v [E [I B]]]; auto.
  - apply Forall_forall. intros x Hx. apply in_map_iff in Hx. destruct Hx as [i [<- _]].
    apply tget_base_inr.
  - now rewrite titer_bases_length.
  - rewrite E. f_equal. apply (blocks_inj d j); auto. intros i Hi.
    rewrite B by auto. now apply titer_bases_nth.
Qed.

Lemma titer_from_bases d j l v : (0 < d)%nat -> Forall (inr j) l -> length l = (2 ^ d)%nat ->
  tfrom_bases d j l = Some v -> titer_bases d j v = l.
Proof.
  intros Hd Hl Hlen E.
  destruct (tfrom_bases_ok d j l) as [v' [E' [I B]]]; auto; [lia|].
  rewrite E in E'. inversion E'; subst v'.
  apply (nth_ext _ _ 0 0); [now rewrite titer_bases_length|].
  rewrite titer_bases_length. intros i Hi. rewrite titer_bases_nth by auto. now apply B.
Qed.

Lemma tget_base_xor j a b i :
  tget_base j (tadd a b) i = tadd (tget_base j a i) (tget_base j b i).
Proof.
  apply N.bits_inj. intros r. unfold tadd. rewrite N.lxor_spec, !tget_base_bit, N.lxor_spec.
  now destruct (r <? nbits j).
Qed.

Lemma blk_lt i d : (i < 2 ^ d)%nat -> N.of_nat i + 1 <= nbits d.
Proof. intros H. rewrite <- nbits_nat. lia. Qed.

(** Halves and blocks: block i of a level d+1 value. *)
Lemma tget_base_lo d j a i : (i < 2 ^ d)%nat ->
  tget_base j (lo (d + j) a) i = tget_base j a i.
Proof.
  intros Hi. apply N.bits_inj. intros r. rewrite !tget_base_bit, lo_bit.
  destruct (N.ltb_spec r (nbits j)); auto. simpl.
  rewrite (proj2 (N.ltb_lt _ _)); [apply andb_true_r|].
  rewrite nbits_add. apply blk_lt in Hi. nia.
Qed.

Lemma tget_base_hi d j a i : (i < 2 ^ d)%nat ->
  tget_base j (hi (d + j) a) i = tget_base j a (2 ^ d + i).
Proof.
  intros Hi. apply N.bits_inj. intros r. rewrite !tget_base_bit, hi_bit.
  destruct (N.ltb_spec r (nbits j)); auto. simpl.
  rewrite (proj2 (N.ltb_lt _ _)); [rewrite andb_true_r|].
  - f_equal. rewrite Nat2N.inj_add, nbits_nat, nbits_add. nia.
  - rewrite nbits_add. apply blk_lt in Hi. nia.
Qed.

Lemma tget_base_0 j a : tget_base j a 0 = trunc j a.
Proof. unfold tget_base. reflexivity. Qed.

Lemma tget_base_join d j a b i : inr (d + j) a -> inr (d + j) b -> (i < 2 ^ S d)%nat ->
  tget_base j (join (d + j) a b) i =
  if (i <? 2 ^ d)%nat then tget_base j a i else tget_base j b (i - 2 ^ d).
Proof.
  intros Ha Hb Hi. destruct (Nat.ltb_spec i (2 ^ d)).
  - rewrite <- tget_base_lo with (d := d) by auto. now rewrite lo_join.
  - cbn [Nat.pow] in Hi.
    replace i with (2 ^ d + (i - 2 ^ d))%nat at 1 by lia.
    rewrite <- tget_base_hi by lia. now rewrite hi_join.
Qed.

Lemma tmap_lanes_inr f d j a : (forall x, inr j x -> inr j (f x)) ->
  inr (d + j) a -> inr (d + j) (tmap_lanes f d j a).
Proof.
  intros Hf. revert a; induction d; intros a Ha; cbn [tmap_lanes Nat.add]; auto.
  apply join_inr; apply IHd; auto using lo_inr, hi_inr.
Qed.

Lemma tget_base_map f d j a i : (forall x, inr j x -> inr j (f x)) ->
  inr (d + j) a -> (i < 2 ^ d)%nat ->
  tget_base j (tmap_lanes f d j a) i = f (tget_base j a i).
Proof.
  intros Hf. revert a i; induction d; intros a i Ha Hi; cbn [tmap_lanes Nat.add].
  - cbn in Hi. assert (i = 0%nat) by lia. subst. rewrite !tget_base_0, !trunc_id; auto.
  - rewrite tget_base_join by (auto; apply tmap_lanes_inr; auto using lo_inr, hi_inr).
    cbn [Nat.pow] in Hi.
    destruct (Nat.ltb_spec i (2 ^ d)).
    + rewrite IHd by auto using lo_inr. f_equal. now apply tget_base_lo.
    + rewrite IHd by (auto using hi_inr; lia). f_equal. rewrite tget_base_hi by lia.
      f_equal. lia.
Qed.

Lemma tmul_sub_map d j a r : tmul_sub d j a r = tmap_lanes (fun x => tmul j x r) d j a.
Proof.
  revert a; induction d; intros a; cbn [tmul_sub tmap_lanes]; auto. now rewrite !IHd.
Qed.

Lemma tget_base_mul_sub d j a r i : inr (d + j) a -> inr j r -> (i < 2 ^ d)%nat ->
  tget_base j (tmul (d + j) a r) i = tmul j (tget_base j a i) r.
Proof.
  intros Ha Hr Hi. rewrite <- tmul_sub_spec, tmul_sub_map by auto.
  apply (tget_base_map (fun x => tmul j x r)); auto. intros; now apply tmul_inr.
Qed.

(** mul_primitive *)
Lemma tmul_alpha_lanes d iota a : inr (d + S iota) a ->
  tmap_lanes (tmul_alpha (S iota)) d (S iota) a = tmul (d + S iota) a (2 ^ 2 ^ N.of_nat iota).
Proof.
  intros Ha.
  assert (H : inr (S iota) (2 ^ 2 ^ N.of_nat iota)).
  { rewrite <- alpha_pat_val. apply alpha_pat_inr. }
  apply (blocks_inj d (S iota)).
  - apply tmap_lanes_inr; auto using tmul_alpha_inr.
  - apply tmul_inr; auto. apply (inr_le (S iota)); auto; lia.
  - intros i Hi. rewrite tget_base_map, tget_base_mul_sub; auto using tmul_alpha_inr.
    rewrite tmul_alpha_spec, alpha_pat_val by apply tget_base_inr. reflexivity.
Qed.

Lemma tmul_primitive_spec k iota a : inr k a ->
  tmul_primitive k iota a =
  if (iota <? k)%nat then Some (tmul k a (2 ^ 2 ^ N.of_nat iota)) else None.
Proof.
  intros Ha. unfold tmul_primitive. destruct (Nat.ltb_spec iota k); auto. f_equal.
  assert (E : (k - S iota + S iota)%nat = k) by lia.
  rewrite tmul_alpha_lanes by now rewrite E. now rewrite E.
Qed.

(** one-bit scalar *)
Lemma tmul_1b_spec k a r : inr k a -> inr 0 r -> tmul_1b k a r = tmul k a r.
Proof.
  intros Ha Hr. unfold tmul_1b. destruct (inr0 r Hr); subst; cbn [N.eqb].
  - rewrite N.land_0_r. rewrite tmul_comm, tmul_0_l; auto using inr_0.
  - rewrite tmul_comm, tmul_1_l by (auto using inr_1). apply trunc_id. exact Ha.
Qed.

(** min_tower_level *)
Lemma min_level_spec : forall fuel level a, inr (level + fuel) a ->
  let m := min_level_from level fuel a in
  (level <= m <= level + fuel)%nat /\ inr m a /\
  (forall j, (level <= j < m)%nat -> ~ inr j a).
Proof.
  induction fuel; intros level a Ha; cbn [min_level_from].
  - rewrite Nat.add_0_r in Ha. repeat split; try lia; auto.
  - destruct (N.eqb_spec (N.shiftr a (nbits level)) 0) as [E|E].
    + repeat split; try lia. apply inr_bits. intros i Hi.
      replace i with (i - nbits level + nbits level) by lia.
      rewrite <- testbit_shiftr, E. apply N.bits_0.
    + destruct (IHfuel (S level) a) as [A [B C]].
      { now replace (S level + fuel)%nat with (level + S fuel)%nat by lia. }
      repeat split; auto; try lia. intros j Hj.
      destruct (Nat.eq_dec j level); [|apply C; lia]. subst j. intros Hin. apply E.
      apply N.bits_inj. intros i. rewrite N.bits_0, testbit_shiftr.
      apply (proj1 (inr_bits _ a) Hin). lia.
Qed.
