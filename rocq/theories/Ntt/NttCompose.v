(** The rounds of the transform composed: the forward transform evaluates, and each round is undone
    by the corresponding round of the other direction. *)
Require Import Coq.setoid_ring.Ring Coq.Arith.Arith Coq.Lists.List Coq.Bool.Bool Lia.
From Verif Require Import Base.Fld Base.Lists Base.Sums Base.NatBits Ntt.NttSpec Ntt.SubspaceTheory Ntt.TwiddleModel
  Ntt.TwiddleProofs Ntt.NttModel Ntt.NttProofs.
Import ListNotations.

Arguments sc {_} _ _ _.
Arguments wfd {_} _ _.
Arguments Rnd {_} _ _ _ _ _ _.
Arguments lanewise {_} _ _ _.
Arguments fwd_bf {_} _ _ _.
Arguments inv_bf {_} _ _ _.
Arguments T0 {_} _ _ _.

Section Compose.
  Variable F : field.
  Hypothesis H2 : char2 F.
  Local Open Scope fld_scope.
  Add Ring Fring : (f_ring F).

  (** ** On scalar functions *)
  Definition Rs (sb : F -> F -> F -> F * F) (lx ly : nat) (T : nat -> nat -> F) (l : list nat) (g : nat -> F) : nat -> F :=
    fold_left (fun g i => Rnd sb (lx + i) (2 ^ (ly - 1 - i)) (T i) g) l g.

  Lemma Rs_ext sb lx ly T l n : (forall i, In i l -> (lx + i < n)%nat) ->
    forall g g', (forall s, (s < 2 ^ n)%nat -> g s = g' s) ->
    forall s, (s < 2 ^ n)%nat -> Rs sb lx ly T l g s = Rs sb lx ly T l g' s.
  Proof.
    induction l as [|i l IH]; intros Hl g g' H s Hs; [now apply H|]. cbn [Rs fold_left].
    apply IH; auto; [intros; apply Hl; now right|]. intros s' Hs'. apply (Rnd_ext F 0 _ _ _ _ _ _ n); auto. apply Hl. now left.
  Qed.

  Lemma Rs_app sb lx ly T l1 l2 g : Rs sb lx ly T (l1 ++ l2) g = Rs sb lx ly T l2 (Rs sb lx ly T l1 g).
  Proof. apply fold_left_app. Qed.

  (** The scalar at position [y] of column [x] of layer [z]. *)
  Definition pos (lx ly z y x : nat) : nat := ((z * 2 ^ ly + y) * 2 ^ lx + x)%nat.

  Lemma pos_lt lx ly lz z y x : (z < 2 ^ lz)%nat -> (y < 2 ^ ly)%nat -> (x < 2 ^ lx)%nat ->
    (pos lx ly z y x < 2 ^ (lx + ly + lz))%nat.
  Proof. intros. unfold pos. rewrite <- Nat.add_assoc. apply mix_lt; auto. now apply mix_lt. Qed.

  Lemma Rnd_col (sb : F -> F -> F -> F * F) lx ly i T g z y x : (i < ly)%nat -> (y < 2 ^ ly)%nat -> (x < 2 ^ lx)%nat ->
    Rnd sb (lx + i) (2 ^ (ly - 1 - i)) T g (pos lx ly z y x) =
    Rnd sb (0 + i) (2 ^ (ly - 1 - i)) T (fun y => g (pos lx ly z y x)) y.
  Proof.
    intros Li Hy Hx. unfold Rnd, pos.
    assert (Q : (((z * 2 ^ ly + y) * 2 ^ lx + x) / 2 ^ S (lx + i) = z * 2 ^ (ly - S i) + y / 2 ^ S i)%nat).
    { rewrite mix_div_hi by (auto; lia). replace (S (lx + i) - lx)%nat with (S i) by lia.
      rewrite mix_div_lo by lia. reflexivity. }
    assert (B : Nat.testbit ((z * 2 ^ ly + y) * 2 ^ lx + x) (lx + i) = Nat.testbit y i).
    { rewrite mix_bit_hi by (auto; lia). replace (lx + i - lx)%nat with i by lia. now apply mix_bit_lo. }
    assert (M : (((z * 2 ^ ly + y) * 2 ^ lx + x) mod 2 ^ (lx + i) = (y mod 2 ^ i) * 2 ^ lx + x)%nat).
    { rewrite mod_split, mix_div, mix_mod by auto. f_equal. f_equal. apply mix_mod_lo. lia. }
    rewrite Q, B, M. cbn [Nat.add].
    replace (ly - S i)%nat with (ly - 1 - i)%nat by lia.
    replace ((z * 2 ^ (ly - 1 - i) + y / 2 ^ S i) mod 2 ^ (ly - 1 - i))%nat with ((y / 2 ^ S i) mod 2 ^ (ly - 1 - i))%nat
      by (symmetry; now apply mix_mod_lo).
    assert (E : (2 ^ ly = 2 ^ (ly - 1 - i) * 2 ^ S i)%nat).
    { rewrite <- Nat.pow_add_r. f_equal. lia. }
    assert (E2 : (2 ^ S (lx + i) = 2 ^ S i * 2 ^ lx)%nat).
    { rewrite <- Nat.pow_add_r. f_equal. lia. }
    assert (E3 : (2 ^ (lx + i) = 2 ^ i * 2 ^ lx)%nat).
    { rewrite <- Nat.pow_add_r. f_equal. lia. }
    rewrite E, E2, E3.
    set (A := (2 ^ (ly - 1 - i))%nat). set (q := (y / 2 ^ S i)%nat). set (r := (y mod 2 ^ i)%nat).
    set (X := (2 ^ lx)%nat). set (Y := (2 ^ S i)%nat). set (Z := (2 ^ i)%nat).
    replace ((z * A + q) * (Y * X) + (r * X + x))%nat with ((z * (A * Y) + (q * Y + r)) * X + x)%nat by lia.
    replace ((z * A + q) * (Y * X) + Z * X + (r * X + x))%nat with ((z * (A * Y) + (q * Y + Z + r)) * X + x)%nat by lia.
    reflexivity.
  Qed.

  Lemma Rs_col sb lx ly T l z x : (forall i, In i l -> (i < ly)%nat) -> (x < 2 ^ lx)%nat ->
    forall g y, (y < 2 ^ ly)%nat ->
    Rs sb lx ly T l g (pos lx ly z y x) = Rs sb 0 ly T l (fun y => g (pos lx ly z y x)) y.
  Proof.
    intros Hl Hx. induction l as [|i l IH]; intros g y Hy; [reflexivity|].
    change (Rs sb lx ly T (i :: l) g) with (Rs sb lx ly T l (Rnd sb (lx + i) (2 ^ (ly - 1 - i)) (T i) g)).
    rewrite IH by (auto; intros; apply Hl; now right).
    change (Rs sb 0 ly T (i :: l) (fun y => g (pos lx ly z y x)))
      with (Rs sb 0 ly T l (Rnd sb (0 + i) (2 ^ (ly - 1 - i)) (T i) (fun y => g (pos lx ly z y x)))).
    apply (Rs_ext _ _ _ _ _ ly); auto.
    - intros. apply Hl. now right.
    - intros s Hs. apply Rnd_col; auto. apply Hl. now left.
  Qed.

  (** The forward rounds below [n] expand in the products of the round factors [h]. *)
  Lemma Rs_eval ly T h n : (n <= ly)%nat ->
    (forall b y, (b < n)%nat -> (y < 2 ^ ly)%nat ->
       h b y = T b (y / 2 ^ S b)%nat + (if Nat.testbit y b then 1 else 0)) ->
    forall f y, (y < 2 ^ ly)%nat ->
    Rs fwd_bf 0 ly T (rev (seq 0 n)) f y =
    sumn (2 ^ n) (fun j => f (y / 2 ^ n * 2 ^ n + j)%nat * prodn n (fun b => if Nat.testbit j b then h b y else 1)).
  Proof.
    induction n as [|n IH]; intros Ln Hh f y Hy.
    - cbn [seq rev]. change (2 ^ 0)%nat with 1%nat. rewrite sumn_1, prodn_0, Nat.div_1_r. unfold Rs. cbn [fold_left].
      replace (y * 1 + 0)%nat with y by lia. ring.
    - rewrite seq_S, rev_app_distr. cbn [rev app Nat.add].
      change (Rs fwd_bf 0 ly T (n :: rev (seq 0 n)) f) with
        (Rs fwd_bf 0 ly T (rev (seq 0 n)) (Rnd fwd_bf (0 + n) (2 ^ (ly - 1 - n)) (T n) f)).
      rewrite IH by (auto; lia). cbn [Nat.add].
      set (q := (y / 2 ^ S n)%nat).
      assert (Lq : (q < 2 ^ (ly - 1 - n))%nat).
      { unfold q. apply div_lt. now replace (S n + (ly - 1 - n))%nat with ly by lia. }
      assert (DV : (y / 2 ^ n * 2 ^ n = q * 2 ^ S n + (if Nat.testbit y n then 2 ^ n else 0))%nat).
      { pose proof (split_bit y n) as SB. fold q in SB. pose proof (mix_dm y n). lia. }
      rewrite (sumn_ext F (2 ^ n) _ (fun j =>
         (f (q * 2 ^ S n + j)%nat + f (q * 2 ^ S n + 2 ^ n + j)%nat * h n y) *
         prodn n (fun b => if Nat.testbit j b then h b y else 1))).
      2:{ intros j Hj. f_equal. rewrite DV. unfold Rnd.
          assert (QQ : ((q * 2 ^ S n + (if Nat.testbit y n then 2 ^ n else 0) + j) / 2 ^ S n = q)%nat).
          { rewrite <- Nat.add_assoc. apply mix_div. rewrite pow2_S. destruct (Nat.testbit y n); lia. }
          assert (MM : ((q * 2 ^ S n + (if Nat.testbit y n then 2 ^ n else 0) + j) mod 2 ^ n = j)%nat).
          { rewrite <- DV. now apply mix_mod. }
          rewrite QQ, MM. rewrite Nat.mod_small by auto.
          assert (BB : Nat.testbit (q * 2 ^ S n + (if Nat.testbit y n then 2 ^ n else 0) + j) n = Nat.testbit y n).
          { destruct (Nat.testbit y n); [now apply bit_set|]. rewrite Nat.add_0_r. now apply bit_clear. }
          rewrite BB. rewrite (Hh n y) by (auto; lia). fold q. unfold fwd_bf.
          destruct (Nat.testbit y n); cbn [fst snd]; ring. }
      rewrite pow2_S, sumn_split.
      rewrite <- sumn_add. apply sumn_ext. intros j Hj.
      rewrite !prodn_S. rewrite (bit_above j n n) by auto.
      replace (Nat.testbit (2 ^ n + j) n) with true.
      2:{ symmetry. rewrite <- (bit_set 0 n j) by auto. reflexivity. }
      rewrite (prodn_ext F n (fun b => if Nat.testbit (2 ^ n + j) b then h b y else 1)
                           (fun b => if Nat.testbit j b then h b y else 1)).
      2:{ intros b Hb. replace (2 ^ n + j)%nat with (1 * 2 ^ n + j)%nat by lia. now rewrite mix_bit_lo. }
      rewrite <- pow2_S. fold q. rewrite Nat.add_assoc. ring.
  Qed.

  Lemma inv_fwd (t u v : F) : inv_bf t (fst (fwd_bf t u v)) (snd (fwd_bf t u v)) = (u, v).
  Proof.
    assert (D : forall x : F, x + x = 0) by (intros; now apply char2_double).
    unfold inv_bf, fwd_bf. cbn [fst snd]. f_equal.
    - replace (u + v * t + (v + (u + v * t) + (u + v * t)) * t)
        with (u + (v * t + v * t) + ((u + v * t) + (u + v * t)) * t) by ring. rewrite !D. ring.
    - replace (v + (u + v * t) + (u + v * t)) with (v + ((u + v * t) + (u + v * t))) by ring. rewrite D. ring.
  Qed.

  Lemma fwd_inv (t u v : F) : fwd_bf t (fst (inv_bf t u v)) (snd (inv_bf t u v)) = (u, v).
  Proof.
    assert (D : forall x : F, x + x = 0) by (intros; now apply char2_double).
    unfold inv_bf, fwd_bf. cbn [fst snd]. f_equal.
    - replace (u + (v + u) * t + (v + u) * t) with (u + ((v + u) * t + (v + u) * t)) by ring. rewrite D. ring.
    - replace (v + u + (u + (v + u) * t + (v + u) * t)) with (v + (u + u) + ((v + u) * t + (v + u) * t)) by ring.
      rewrite !D. ring.
  Qed.

  Section Width.
  Variable lw : nat.
  Let wd := (2 ^ lw)%nat.

  Lemma rounds_spec (rd : list (list F) -> nat -> option (list (list F))) sb lx ly T len tot l :
    (forall i, In i l -> (lx + i < tot)%nat) ->
    (forall i D, In i l -> wfd lw D -> length D = len -> exists D', rd D i = Some D' /\ length D' = length D /\ wfd lw D' /\
       forall s, (s < 2 ^ tot)%nat -> sc lw D' s = Rnd sb (lx + i) (2 ^ (ly - 1 - i)) (T i) (sc lw D) s) ->
    forall D, wfd lw D -> length D = len ->
    exists D', ofold rd l D = Some D' /\ length D' = length D /\ wfd lw D' /\
      forall s, (s < 2 ^ tot)%nat -> sc lw D' s = Rs sb lx ly T l (sc lw D) s.
  Proof.
    induction l as [|i l IH]; intros Hl H D WD LD.
    - exists D. cbn. auto.
    - destruct (H i D) as [D1 [E1 [L1 [W1 S1]]]]; [now left|auto|auto|].
      destruct (IH (fun i Hi => Hl i (or_intror Hi)) (fun i D Hi => H i D (or_intror Hi)) D1 W1) as [D2 [E2 [L2 [W2 S2]]]]; [congruence|].
      exists D2. cbn [ofold]. rewrite E1. split; [exact E2|]. split; [congruence|]. split; [exact W2|].
      intros s Hs. rewrite S2 by auto.
      change (Rs sb lx ly T (i :: l) (sc lw D)) with (Rs sb lx ly T l (Rnd sb (lx + i) (2 ^ (ly - 1 - i)) (T i) (sc lw D))).
      apply (Rs_ext _ _ _ _ _ tot); auto. intros. apply Hl. now right.
  Qed.

  Lemma rounds_undo (rd rd' : list (list F) -> nat -> option (list (list F))) len l :
    (forall i D, In i l -> wfd lw D -> length D = len -> exists D', rd D i = Some D' /\ length D' = length D /\ wfd lw D' /\
       rd' D' i = Some D) ->
    forall D, wfd lw D -> length D = len ->
    exists D', ofold rd l D = Some D' /\ length D' = length D /\ wfd lw D' /\ ofold rd' (rev l) D' = Some D.
  Proof.
    induction l as [|i l IH]; intros H D WD LD.
    - exists D. cbn. auto.
    - destruct (H i D) as [D1 [E1 [L1 [W1 S1]]]]; [now left|auto|auto|].
      destruct (IH (fun i D Hi => H i D (or_intror Hi)) D1 W1) as [D2 [E2 [L2 [W2 S2]]]]; [congruence|].
      exists D2. cbn [ofold rev]. rewrite E1. split; [exact E2|]. split; [congruence|]. split; [exact W2|].
      rewrite ofold_app, S2. cbn [obind ofold]. now rewrite S1.
  Qed.

  (** ** Undoing one round *)
  Definition undoes (g g' : list F -> list F -> option (list F * list F)) : Prop :=
    forall a b, length a = wd -> length b = wd -> exists a' b', g a b = Some (a', b') /\ length a' = wd /\ length b' = wd /\
      g' a' b' = Some (a, b).

  Lemma fold_undo {I} (qf lf : I -> nat) P (g g' : I -> list F -> list F -> option (list F * list F)) items D :
    NoDup items ->
    (forall it, In it items -> (lf it < 2 ^ P)%nat /\ (qf it * 2 ^ S P + 2 ^ P + lf it < length D)%nat) ->
    (forall it it', In it items -> In it' items -> qf it = qf it' -> lf it = lf it' -> it = it') ->
    (forall it, In it items -> undoes (g it) (g' it)) ->
    (forall it, In it items -> undoes (g' it) (g it)) ->
    wfd lw D ->
    let rd g := ofold (fun D it => update2 D (qf it * 2 ^ S P + lf it) (qf it * 2 ^ S P + 2 ^ P + lf it) (g it)) items in
    exists D', rd g D = Some D' /\ length D' = length D /\ wfd lw D' /\ rd g' D' = Some D.
  Proof.
    intros ND BD INJ U1 U2 WD rd.
    assert (TOT : forall g g' : I -> list F -> list F -> option (list F * list F),
       (forall it, In it items -> undoes (g it) (g' it)) -> forall it a b, In it items -> length a = wd -> length b = wd ->
       exists a' b', g it a b = Some (a', b') /\ length a' = wd /\ length b' = wd).
    { intros h h' HU it a b Hin La Lb. destruct (HU it Hin a b La Lb) as [a' [b' [E [L1 [L2 _]]]]]. eauto. }
    destruct (bf_fold F lw qf lf P g items D ND BD INJ (TOT _ _ U1) WD) as [D' [E [LD [WD' [HP HN]]]]].
    assert (BD' : forall it, In it items -> (lf it < 2 ^ P)%nat /\ (qf it * 2 ^ S P + 2 ^ P + lf it < length D')%nat)
      by (rewrite LD; exact BD).
    destruct (bf_fold F lw qf lf P g' items D' ND BD' INJ (TOT _ _ U2) WD') as [D2 [E2 [LD2 [WD2 [HP2 HN2]]]]].
    exists D'. split; [exact E|]. split; [exact LD|]. split; [exact WD'|]. unfold rd. rewrite E2. f_equal.
    apply (nth_ext _ _ [] []); [congruence|]. intros m Hm.
    destruct (existsb (fun it => (m =? qf it * 2 ^ S P + lf it)%nat || (m =? qf it * 2 ^ S P + 2 ^ P + lf it)%nat) items) eqn:EX.
    - apply existsb_exists in EX. destruct EX as [it [Hin EQ]].
      destruct (HP it Hin) as [a' [b' [G1 [N1 N2]]]]. destruct (HP2 it Hin) as [a2 [b2 [G2 [N3 N4]]]].
      destruct (BD it Hin) as [B1 B2].
      destruct (U1 it Hin (nth (qf it * 2 ^ S P + lf it) D []) (nth (qf it * 2 ^ S P + 2 ^ P + lf it) D []))
        as [a3 [b3 [G3 [L3 [L4 G4]]]]]; [apply wfd_nth; auto; lia|apply wfd_nth; auto|].
      rewrite G1 in G3. inversion G3; subst a3 b3. rewrite N1, N2, G4 in G2. inversion G2; subst a2 b2.
      apply orb_prop in EQ. destruct EQ as [EQ|EQ]; apply Nat.eqb_eq in EQ; subst m; congruence.
    - assert (NI : forall it, In it items -> m <> (qf it * 2 ^ S P + lf it)%nat /\ m <> (qf it * 2 ^ S P + 2 ^ P + lf it)%nat).
      { intros it Hin. rewrite <- not_true_iff_false, existsb_exists in EX.
        split; intros ->; apply EX; exists it; (split; [exact Hin|]); rewrite Nat.eqb_refl; [reflexivity|apply orb_true_r]. }
      now rewrite HN2, HN.
  Qed.

  Lemma lanewise_undo bf bf' sb sb' : lanewise lw bf sb -> lanewise lw bf' sb' ->
    (forall t u v, sb' t (fst (sb t u v)) (snd (sb t u v)) = (u, v)) ->
    forall t, length t = wd -> undoes (bf t) (bf' t).
  Proof.
    intros HL HL' HI t LT a b La Lb. destruct (HL t a b LT La Lb) as [a' [b' [E [L1 [L2 N]]]]].
    exists a', b'. split; [exact E|]. split; [exact L1|]. split; [exact L2|].
    destruct (HL' t a' b' LT L1 L2) as [a2 [b2 [E2 [L3 [L4 N2]]]]]. rewrite E2.
    assert (X : forall x, (x < wd)%nat -> nth x a2 0 = nth x a 0 /\ nth x b2 0 = nth x b 0).
    { intros x Hx. destruct (N x Hx) as [Na Nb]. destruct (N2 x Hx) as [Na2 Nb2].
      rewrite Na2, Nb2, Na, Nb, HI. auto. }
    fold wd in L3, L4.
    assert (a2 = a) as -> by (apply (nth_ext _ _ 0 0); [congruence|intros x Hx; apply X; congruence]).
    assert (b2 = b) as -> by (apply (nth_ext _ _ 0 0); [congruence|intros x Hx; apply X; congruence]).
    reflexivity.
  Qed.

  Lemma interleave_invol p (a b u v : list F) : length a = wd -> length b = wd ->
    pk_interleave lw p a b = Some (u, v) -> pk_interleave lw p u v = Some (a, b) /\ length u = wd /\ length v = wd.
  Proof.
    intros La Lb. unfold pk_interleave. destruct (Nat.ltb_spec p lw) as [Lp|]; [|discriminate].
    intros E. inversion E; subst u v. clear E. rewrite !map_length, !seq_length. split; [|now split].
    pose proof (pow2_pos p) as PP.
    assert (BS : forall x, (x < wd)%nat -> if Nat.testbit x p then (2 ^ p <= x)%nat /\ Nat.testbit (x - 2 ^ p) p = false
                           else (x + 2 ^ p < wd)%nat /\ Nat.testbit (x + 2 ^ p) p = true).
    { intros x Hx. pose proof (split_bit x p) as SB. pose proof (mod_lt x p) as M.
      assert (Q : (x / 2 ^ S p < 2 ^ (lw - S p))%nat).
      { apply div_lt. now replace (S p + (lw - S p))%nat with lw by lia. }
      assert (Q2 : (x / 2 ^ S p * 2 ^ S p + (2 ^ p + x mod 2 ^ p) < wd)%nat).
      { unfold wd. replace lw with (S p + (lw - S p))%nat by lia. apply mix_lt; auto. rewrite pow2_S. lia. }
      destruct (Nat.testbit x p).
      - split; [lia|]. replace (x - 2 ^ p)%nat with (x / 2 ^ S p * 2 ^ S p + x mod 2 ^ p)%nat by lia. now apply bit_clear.
      - split; [lia|]. replace (x + 2 ^ p)%nat with (x / 2 ^ S p * 2 ^ S p + 2 ^ p + x mod 2 ^ p)%nat by lia. now apply bit_set. }
    f_equal. f_equal; (apply (nth_ext _ _ 0 0); [rewrite map_length, seq_length; now rewrite ?La, ?Lb|]);
      rewrite map_length, seq_length; intros x Hx; fold wd in Hx; specialize (BS x Hx);
      rewrite nth_map_seq by auto; destruct (Nat.testbit x p) eqn:EB; destruct BS as [B1 B2].
    - rewrite nth_map_seq by (fold wd; lia). rewrite B2. f_equal. lia.
    - rewrite nth_map_seq by auto. now rewrite EB.
    - rewrite nth_map_seq by auto. now rewrite EB.
    - rewrite nth_map_seq by auto. rewrite B2. f_equal. lia.
  Qed.

  Lemma interleave_ok p (a b : list F) : (p < lw)%nat -> exists u v, pk_interleave lw p a b = Some (u, v).
  Proof. intros L. unfold pk_interleave. rewrite (proj2 (Nat.ltb_lt _ _) L). eauto. Qed.

  Lemma undoes_interleave p g g' : (p < lw)%nat -> undoes g g' ->
    undoes (fun a b => do uv <- pk_interleave lw p a b; do uv' <- g (fst uv) (snd uv); pk_interleave lw p (fst uv') (snd uv'))
           (fun a b => do uv <- pk_interleave lw p a b; do uv' <- g' (fst uv) (snd uv); pk_interleave lw p (fst uv') (snd uv')).
  Proof.
    intros Lp U a b La Lb. destruct (interleave_ok p a b Lp) as [u [v E1]]. rewrite E1. cbn [obind fst snd].
    destruct (interleave_invol p a b u v La Lb E1) as [I1 [Lu Lv]].
    destruct (U u v Lu Lv) as [u' [v' [E2 [Lu' [Lv' E2']]]]]. rewrite E2. cbn [obind fst snd].
    destruct (interleave_ok p u' v' Lp) as [x [y E3]]. rewrite E3.
    destruct (interleave_invol p u' v' x y Lu' Lv' E3) as [I3 [Lx Ly]].
    exists x, y. split; [reflexivity|]. split; [exact Lx|]. split; [exact Ly|]. rewrite I3. cbn [obind fst snd].
    rewrite E2'. cbn [obind fst snd]. exact I1.
  Qed.

  Lemma big_round_undo bf bf' s_evals t lx ly lz coset i D :
    (forall t, length t = wd -> undoes (bf t) (bf' t)) -> (forall t, length t = wd -> undoes (bf' t) (bf t)) ->
    (lw <= lx + i)%nat -> (i < ly)%nat ->
    nth_error s_evals i = Some t ->
    (forall k, (k < 2 ^ (ly - 1 - i))%nat -> exists T, tw_get t (coset * 2 ^ (ly - 1 - i) + k) = Some T) ->
    wfd lw D -> length D = (2 ^ (lx + ly + lz - lw))%nat ->
    exists D', big_round bf lw s_evals (mkShape lx ly lz) coset D i = Some D' /\ length D' = length D /\ wfd lw D' /\
      big_round bf' lw s_evals (mkShape lx ly lz) coset D' i = Some D.
  Proof.
    intros U1 U2 Lw Li ET HT WD LD. unfold big_round. rewrite ET. cbn [obind log_x log_y log_z].
    unfold underflows. rewrite !(proj2 (Nat.ltb_ge _ _)) by lia. cbn [orb]. cbv zeta.
    set (P := (lx + i - lw)%nat). set (e := (ly - 1 - i)%nat) in *.
    assert (HN : (lx + ly + lz - lw = S P + (e + lz))%nat) by (unfold P, e; lia).
    set (items := list_prod (list_prod (seq 0 (2 ^ lz)) (seq 0 (2 ^ e))) (seq 0 (2 ^ (i + lx - lw)))).
    assert (IT : forall j k l, In (j, k, l) items <-> (j < 2 ^ lz /\ k < 2 ^ e /\ l < 2 ^ P)%nat).
    { intros j k l. unfold items. rewrite !in_prod_iff, !in_seq. replace (i + lx - lw)%nat with P by (unfold P; lia). lia. }
    set (qf := fun it : nat * nat * nat => let '(j, k, l) := it in (j * 2 ^ e + k)%nat).
    set (lf := fun it : nat * nat * nat => let '(j, k, l) := it in l).
    set (T := fun k => match tw_get t (coset * 2 ^ e + k) with Some T => T | None => 0 end).
    set (g := fun (bf : list F -> list F -> list F -> option (list F * list F)) (it : nat * nat * nat) =>
                let '(j, k, l) := it in bf (pk_broadcast lw (T k))).
    assert (LBR : forall x : F, length (pk_broadcast lw x) = wd) by (intros; apply repeat_length).
    assert (FORM : forall h D,
       ofold (fun data '((j, k), l) =>
      do tw <- tw_get t (Nat.lor (Nat.shiftl coset e) k);
      let idx0 := Nat.lor (Nat.lor (Nat.shiftl j (lx + ly - lw)) (Nat.shiftl k (lx + i + 1 - lw))) l in
      let idx1 := Nat.lor idx0 (Nat.shiftl 1 P) in
      update2 data idx0 idx1 (h (pk_broadcast lw tw))) items D =
      ofold (fun D it => update2 D (qf it * 2 ^ S P + lf it) (qf it * 2 ^ S P + 2 ^ P + lf it) (g h it)) items D).
    { intros h D1. apply ofold_ext. intros D0 [[j k] l] Hin. apply IT in Hin. destruct Hin as [Hj [Hk Hl]].
        unfold g, T. cbn [qf lf].
        rewrite shl_mul, lor_shiftl by auto. destruct (HT k Hk) as [T' ET']. rewrite ET'. cbn [obind].
        rewrite !shl_mul. rewrite Nat.mul_1_l.
        replace (lx + ly - lw)%nat with (S P + e)%nat by (unfold P, e; lia).
        replace (lx + i + 1 - lw)%nat with (S P) by (unfold P; lia).
        assert (KS : (k * 2 ^ S P < 2 ^ (S P + e))%nat).
        { rewrite Nat.pow_add_r. pose proof (pow2_pos (S P)). nia. }
        rewrite (lor_shiftl j (S P + e)) by auto.
        replace (j * 2 ^ (S P + e) + k * 2 ^ S P)%nat with ((j * 2 ^ e + k) * 2 ^ S P)%nat by (rewrite Nat.pow_add_r; lia).
        assert (LS : (l < 2 ^ S P)%nat) by (rewrite pow2_S; lia).
        rewrite lor_shiftl by auto. rewrite lor_bit by auto. reflexivity. }
    destruct (fold_undo qf lf P (g bf) (g bf') items D) as [D' [E1 [E2 [E3 E4]]]]; auto.
    - unfold items. repeat apply NoDup_list_prod; apply seq_NoDup.
    - intros [[j k] l] Hin. apply IT in Hin. destruct Hin as [Hj [Hk Hl]]. cbn [lf qf]. split; auto.
      rewrite LD, HN. rewrite <- Nat.add_assoc. apply mix_lt; [|rewrite pow2_S; lia]. now apply mix_lt.
    - intros [[j k] l] [[j' k'] l'] HA HB Q Q2. apply IT in HA, HB. cbn [lf qf] in *.
      assert (j = j').
      { apply (f_equal (fun x => x / 2 ^ e)%nat) in Q. rewrite !mix_div in Q by tauto. exact Q. }
      subst. f_equal. f_equal. lia.
    - intros [[j k] l] Hin. unfold g. apply U1, LBR.
    - intros [[j k] l] Hin. unfold g. apply U2, LBR.
    - exists D'. rewrite !FORM. auto.
  Qed.

  Lemma small_round_undo bf bf' s_evals t n b lx ly lz coset i D :
    (forall t, length t = wd -> undoes (bf t) (bf' t)) -> (forall t, length t = wd -> undoes (bf' t) (bf t)) ->
    (lx + i < lw)%nat -> (i < ly)%nat ->
    nth_error s_evals i = Some t -> tw_repr t n 0 b ->
    (ly - 1 - i <= n)%nat -> (coset < 2 ^ (n - (ly - 1 - i)))%nat ->
    wfd lw D -> length D = (2 ^ (Nat.max (lx + ly + lz) (S lw) - lw))%nat ->
    exists D', small_round bf lw s_evals (mkShape lx ly lz) coset D i = Some D' /\ length D' = length D /\ wfd lw D' /\
      small_round bf' lw s_evals (mkShape lx ly lz) coset D' i = Some D.
  Proof.
    intros U1 U2 Lw Li ET R Ln Lc WD LD. unfold small_round. rewrite ET. cbn [obind log_x log_y log_z].
    unfold underflows. rewrite !(proj2 (Nat.ltb_ge _ _)) by lia. cbn [orb]. cbv zeta.
    destruct (additive_twiddle_spec F lw t n b lx ly lz i Lw Li R Ln) as [bt [EB [LB _]]]. rewrite EB. cbn [obind].
    set (p := (lx + i)%nat) in *. replace (i + lx)%nat with p by (unfold p; lia).
    set (e' := (ly - 1 - i)%nat) in *.
    set (lpc := (ly - 1 - (lw - lx))%nat).
    set (tot := (lx + ly + lz)%nat) in *.
    set (st := (lw - S p)%nat).
    assert (LPC : (lx + ly <= lw /\ lpc = 0 \/ lw < lx + ly /\ e' = lpc + st + 1 /\ lw - lx - i = st + 1 /\ lw + lpc + 1 <= tot)%nat)
      by (unfold lpc, e', st, p, tot; lia).
    assert (CUT : (lw - lx - i = S st)%nat) by (unfold st, p; lia).
    set (nb := (tot - (lw + lpc + 1))%nat).
    assert (LEN : length D = (2 ^ (1 + (lpc + nb)))%nat).
    { rewrite LD. f_equal. unfold nb. destruct (Nat.max_spec tot (S lw)) as [[? ->]|[? ->]]; lia. }
    clearbody nb.
    set (items := list_prod (seq 0 (2 ^ nb)) (seq 0 (2 ^ lpc))).
    assert (IT : forall j k, In (j, k) items <-> (j < 2 ^ nb /\ k < 2 ^ lpc)%nat).
    { intros j k. unfold items. rewrite !in_prod_iff, !in_seq. lia. }
    set (qf := fun it : nat * nat => (fst it * 2 ^ lpc + snd it)%nat).
    set (lf := fun it : nat * nat => 0%nat).
    set (gt := fun k => T0 b n (coset * 2 ^ e' + k * 2 ^ S st)%nat).
    set (G := fun (bf : list F -> list F -> list F -> option (list F * list F)) k x y => do uv <- pk_interleave lw p x y;
        do uv' <- bf (pk_add (pk_broadcast lw (gt k)) bt) (fst uv) (snd uv);
        pk_interleave lw p (fst uv') (snd uv')).
    assert (LBR : forall x : F, length (pk_broadcast lw x) = wd) by (intros; apply repeat_length).
    assert (KB : forall k, (k < 2 ^ lpc)%nat -> (k * 2 ^ S st < 2 ^ e')%nat).
    { intros k Hk. destruct LPC as [[_ Z]|[_ [E1 _]]].
      - rewrite Z in Hk. cbn in Hk. replace k with 0%nat by lia. cbn. apply pow2_pos.
      - replace e' with (S st + lpc)%nat by lia. rewrite Nat.pow_add_r. pose proof (pow2_pos (S st)). nia. }
    assert (FORM : forall h D,
      ofold (fun data '(j, k) =>
      do g <- tw_get t (Nat.lor (Nat.shiftl coset e') (Nat.shiftl k (lw - lx - i)));
      let tw := pk_add (pk_broadcast lw g) bt in
      let index := Nat.lor (Nat.shiftl k 1) (Nat.shiftl j (lpc + 1)) in
      update2 data index (Nat.lor index 1) (fun a b =>
        do uv <- pk_interleave lw p a b;
        do uv' <- h tw (fst uv) (snd uv);
        pk_interleave lw p (fst uv') (snd uv'))) items D =
      ofold (fun D it => update2 D (qf it * 2 ^ 1 + lf it) (qf it * 2 ^ 1 + 2 ^ 0 + lf it) (G h (snd it))) items D).
    { intros h D1. apply ofold_ext. intros D0 [j k] Hin. apply IT in Hin. destruct Hin as [Hj Hk].
        unfold qf, lf. cbn [fst snd].
        rewrite !shl_mul, CUT. rewrite lor_shiftl by auto.
        rewrite (tw_get_spec F t n 0 b _ R).
        2:{ replace n with (e' + (n - e'))%nat by lia. apply mix_lt; auto. }
        cbn [obind]. rewrite (Nat.lor_comm (k * 2 ^ 1)). rewrite lor_shiftl.
        2:{ replace (lpc + 1)%nat with (1 + lpc)%nat by lia. rewrite Nat.pow_add_r. change (2 ^ 1)%nat with 2%nat. lia. }
        replace (j * 2 ^ (lpc + 1) + k * 2 ^ 1)%nat with ((j * 2 ^ lpc + k) * 2 ^ 1 + 0)%nat by (rewrite (Nat.pow_add_r 2 lpc 1); change (2 ^ 1)%nat with 2%nat; lia).
        change 1%nat with (2 ^ 0)%nat at 4. rewrite (lor_bit _ 0) by (cbn; lia).
        unfold G, gt, T0. replace (0 + bsum b n (coset * 2 ^ e' + k * 2 ^ S st)) with (bsum b n (coset * 2 ^ e' + k * 2 ^ S st)) by ring.
        reflexivity. }
    assert (LT : forall k, length (pk_add (pk_broadcast lw (gt k)) bt) = wd).
    { intros k. unfold pk_add. apply (zip_with_spec F lw); auto. }
    destruct (fold_undo qf lf 0 (fun it => G bf (snd it)) (fun it => G bf' (snd it)) items D) as [D' [E1 [E2 [E3 E4]]]]; auto.
    - unfold items. apply NoDup_list_prod; apply seq_NoDup.
    - intros [j k] Hin. apply IT in Hin. destruct Hin as [Hj Hk]. unfold lf, qf. cbn [fst snd]. split; [cbn; lia|].
      rewrite LEN, <- Nat.add_assoc. apply mix_lt; [now apply mix_lt|cbn; lia].
    - intros [j k] [j' k'] HA HB Q Q2. apply IT in HA, HB. unfold qf in Q. cbn [fst snd] in Q.
      assert (j = j').
      { apply (f_equal (fun x => x / 2 ^ lpc)%nat) in Q. rewrite !mix_div in Q by tauto. exact Q. }
      subst. f_equal. lia.
    - intros [j k] Hin. unfold G. cbn [snd]. apply undoes_interleave; auto.
    - intros [j k] Hin. unfold G. cbn [snd]. apply undoes_interleave; auto.
    - exists D'. rewrite !FORM. auto.
  Qed.
  End Width.
End Compose.
