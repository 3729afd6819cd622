(** Multilinear extensions of derived columns, for the proof of C44. *)
Require Import Coq.setoid_ring.Ring Coq.Arith.Arith Coq.Lists.List Coq.Bool.Bool Lia.
From Verif Require Import Base.Fld Base.Lists Base.Sums Math.MleSpec Math.MleModel Transparent.TransparentModel
  Transparent.TransparentProps Transparent.ShiftModel Transparent.ShiftProps.
Import ListNotations.

Section Mle.
  Variable F : field.
  Local Open Scope fld_scope.
  Add Ring Fring : (f_ring F).

  Lemma vertex_mod n m x : (m <= n)%nat -> vertex (F := F) m (x mod 2 ^ n) = vertex m x.
  Proof.
    revert n x. induction m as [|m IH]; intros n x Hm; auto. destruct n as [|n]; [lia|]. cbn [vertex].
    assert (O : Nat.odd (x mod 2 ^ S n) = Nat.odd x).
    { rewrite <- !Nat.bit0_odd. apply Nat.mod_pow2_bits_low. lia. }
    assert (D : (x mod 2 ^ S n / 2 = (x / 2) mod 2 ^ n)%nat).
    { rewrite Nat.pow_succ_r', Nat.mod_mul_r by (try apply Nat.pow_nonzero; lia).
      rewrite Nat.mul_comm, Nat.div_add by lia. rewrite (Nat.div_small (x mod 2)); [lia|].
      apply Nat.mod_upper_bound. lia. }
    rewrite O, D. f_equal. apply IH. lia.
  Qed.

  Lemma vertex_app a b x : vertex (F := F) (a + b) x = vertex a x ++ vertex b (x / 2 ^ a).
  Proof.
    revert x. induction a as [|a IH]; intros x; cbn [Nat.add vertex app].
    - cbn [Nat.pow]. now rewrite Nat.div_1_r.
    - rewrite IH, Nat.div_div, <- Nat.pow_succ_r' by (try apply Nat.pow_nonzero; lia). reflexivity.
  Qed.

  (** A column repeated along the high variables. *)
  Lemma mle_repeat (v : nat -> F) m p : (m <= length p)%nat ->
    mle (fun x => v (x mod 2 ^ m)%nat) p = mle v (firstn m p).
  Proof.
    intros H. rewrite <- (firstn_skipn m p) at 1. assert (E : length (firstn m p) = m) by (rewrite firstn_length; lia).
    rewrite mle_app_high, E. apply mle_ext. rewrite E. intros x Hx.
    rewrite (mle_ext F _ (fun _ => v x)); [apply mle_const|]. intros y _.
    rewrite Nat.mul_comm, Nat.mod_add, Nat.mod_small; auto. pose proof (Nat.pow_nonzero 2 m). lia.
  Qed.

  (** Fixing [vs] for the variables starting at [s]. *)
  Lemma mle_project (v : nat -> F) s vs p : (s <= length p)%nat ->
    mle (fun x => mle v (vertex s x ++ vs ++ vertex (length p - s) (x / 2 ^ s))) p =
    mle v (firstn s p ++ vs ++ skipn s p).
  Proof.
    intros H. assert (E : length (firstn s p) = s) by (rewrite firstn_length; lia).
    rewrite mle_app_mid, (firstn_skipn s p), E. apply mle_ext. intros x Hx.
    rewrite mle_app_mid, vertex_length. rewrite <- vertex_app.
    replace (s + (length p - s))%nat with (length p) by lia. now rewrite mle_on_cube.
  Qed.

  Lemma mle_add (v w : nat -> F) p : mle (fun x => v x + w x) p = mle v p + mle w p.
  Proof.
    transitivity (mle (fun x => 1 * v x + 1 * w x) p); [apply mle_ext; intros; ring|]. rewrite mle_lin. ring.
  Qed.

  (** A column padded with zeros in the middle variables. *)
  Lemma mle_pad (v : nat -> F) s pad nz p : (s + pad <= length p)%nat ->
    mle (fun x => if ((x / 2 ^ s) mod 2 ^ pad =? nz)%nat
                  then v (x mod 2 ^ s + 2 ^ s * (x / 2 ^ (s + pad)))%nat else 0) p =
    mle (fun x => if (x =? nz)%nat then 1 else 0) (firstn pad (skipn s p)) *
    mle v (firstn s p ++ skipn (s + pad) p).
  Proof.
    intros H. set (a := firstn s p). set (b := firstn pad (skipn s p)). set (c := skipn (s + pad) p).
    assert (Ep : p = a ++ b ++ c).
    { unfold a, b, c. rewrite <- (firstn_skipn s p) at 1. f_equal. rewrite <- (firstn_skipn pad (skipn s p)) at 1. f_equal.
      apply skipn_add. }
    assert (Ea : length a = s) by (unfold a; rewrite firstn_length; lia).
    assert (Eb : length b = pad) by (unfold b; rewrite firstn_length, skipn_length; lia).
    rewrite Ep at 1. rewrite mle_app_mid, Ea, Eb, <- mle_scale. apply mle_ext. intros z Hz.
    set (za := (z mod 2 ^ s)%nat). set (zb := (z / 2 ^ s)%nat).
    assert (P1 := Nat.pow_nonzero 2 s). assert (P2 := Nat.pow_nonzero 2 pad).
    assert (Hza : (za < 2 ^ s)%nat) by (apply Nat.mod_upper_bound; lia).
    rewrite (mle_ext F _ (fun y => v z * (if (y =? nz)%nat then 1 else 0))).
    - rewrite mle_scale. ring.
    - rewrite Eb. intros y Hy.
      replace (za + 2 ^ s * y + 2 ^ (s + pad) * zb)%nat with (za + (y + zb * 2 ^ pad) * 2 ^ s)%nat
        by (rewrite Nat.pow_add_r; lia).
      rewrite Nat.div_add, Nat.mod_add by lia. rewrite (Nat.div_small za), (Nat.mod_small za) by auto. cbn [Nat.add].
      rewrite Nat.mod_add, Nat.mod_small by lia.
      replace ((za + (y + zb * 2 ^ pad) * 2 ^ s) / 2 ^ (s + pad))%nat with zb.
      + replace (za + 2 ^ s * zb)%nat with z.
        * destruct (y =? nz)%nat; ring.
        * unfold za, zb. rewrite Nat.add_comm. apply Nat.div_mod. lia.
      + rewrite Nat.pow_add_r, <- Nat.div_div, Nat.div_add by lia. rewrite (Nat.div_small za) by auto. cbn [Nat.add].
        rewrite Nat.div_add, Nat.div_small by lia. reflexivity.
  Qed.

  Lemma mle_sumn n (f : nat -> nat -> F) p : mle (fun z => sumn n (f z)) p = sumn n (fun x => mle (fun z => f z x) p).
  Proof.
    unfold mle. rewrite sumn_swap. apply sumn_ext. intros z _. rewrite <- sumn_scale_r. reflexivity.
  Qed.

  (** Fixing the low variables at a hypercube point. *)
  Lemma mle_low_vertex (v : nat -> F) b x h : (x < 2 ^ b)%nat ->
    mle v (vertex b x ++ h) = mle (fun z => v (x + 2 ^ b * z)%nat) h.
  Proof. intros H. rewrite mle_app_high, vertex_length, mle_on_cube; auto. Qed.

  (** One block: the sum over the source position against the partially evaluated indicator. *)
  Lemma shift_block (sv : shift_variant) b o (a : nat -> F) y : (0 < o < 2 ^ b)%nat -> (y < 2 ^ b)%nat ->
    sumn (2 ^ b) (fun x => a x * shift_matrix F sv b o x y) =
      match sv with
      | CircularLeft => a ((y + (2 ^ b - o)) mod 2 ^ b)%nat
      | LogicalLeft => if (o <=? y)%nat then a (y - o)%nat else 0
      | LogicalRight => if (y + o <? 2 ^ b)%nat then a (y + o)%nat else 0
      end.
  Proof.
    intros Ho Hy.
    assert (S1 : forall z, (z < 2 ^ b)%nat -> (forall x, (x < 2 ^ b)%nat -> shifted_pair sv b o x y = (x =? z)%nat) ->
      sumn (2 ^ b) (fun x => a x * shift_matrix F sv b o x y) = a z).
    { intros z Hz Hf. rewrite (sumn_single F (2 ^ b) z _ Hz).
      - unfold shift_matrix. rewrite Hf, Nat.eqb_refl by auto. ring.
      - intros x Hx Hne. unfold shift_matrix. rewrite Hf by auto. rewrite (proj2 (Nat.eqb_neq _ _)) by auto. ring. }
    assert (S0 : (forall x, (x < 2 ^ b)%nat -> shifted_pair sv b o x y = false) ->
      sumn (2 ^ b) (fun x => a x * shift_matrix F sv b o x y) = 0).
    { intros Hf. apply sumn_zero. intros x Hx. unfold shift_matrix. rewrite Hf by auto. ring. }
    destruct sv; cbn [shifted_pair] in *.
    - apply S1; [apply Nat.mod_upper_bound; lia|]. intros x Hx.
      assert (E1 : ((x + o) mod 2 ^ b = if (x + o <? 2 ^ b) then x + o else x + o - 2 ^ b)%nat).
      { destruct (Nat.ltb_spec (x + o) (2 ^ b)); [now rewrite Nat.mod_small|]. symmetry. apply (Nat.mod_unique _ _ 1); lia. }
      assert (E2 : ((y + (2 ^ b - o)) mod 2 ^ b = if (o <=? y) then y - o else y + (2 ^ b - o))%nat).
      { destruct (Nat.leb_spec o y); [symmetry; apply (Nat.mod_unique _ _ 1); lia|]. rewrite Nat.mod_small; lia. }
      rewrite E1, E2. destruct (Nat.ltb_spec (x + o) (2 ^ b)), (Nat.leb_spec o y);
      match goal with |- (?p =? ?q)%nat = (?r =? ?s)%nat => destruct (Nat.eqb_spec p q), (Nat.eqb_spec r s); auto; lia end.
    - destruct (Nat.leb_spec o y) as [H|H].
      + apply S1; [lia|]. intros x Hx. destruct (Nat.eqb_spec (x + o) y), (Nat.eqb_spec x (y - o)); auto; lia.
      + apply S0. intros x Hx. apply Nat.eqb_neq. lia.
    - destruct (Nat.ltb_spec (y + o) (2 ^ b)) as [H|H].
      + apply S1; [lia|]. intros x Hx. apply Nat.eqb_sym.
      + apply S0. intros x Hx. apply Nat.eqb_neq. lia.
  Qed.
  (** A shifted column: a sum over one block of the values with the high variables fixed. *)
  Lemma mle_shifted (sv : shift_variant) b o (v : nat -> F) p : (b <= length p)%nat -> (0 < o < 2 ^ b)%nat ->
    mle (fun x => let y := (x mod 2 ^ b)%nat in
                  match sv with
                  | CircularLeft => v (x - y + (y + (2 ^ b - o)) mod 2 ^ b)%nat
                  | LogicalLeft => if (o <=? y)%nat then v (x - o)%nat else 0
                  | LogicalRight => if (y + o <? 2 ^ b)%nat then v (x + o)%nat else 0
                  end) p =
    sumn (2 ^ b) (fun x => mle v (vertex b x ++ skipn b p) * shift_table F sv b o (firstn b p) x).
  Proof.
    intros Hb Ho. assert (E : length (firstn b p) = b) by (rewrite firstn_length; lia).
    assert (P := Nat.pow_nonzero 2 b).
    rewrite <- (firstn_skipn b p) at 1. set (r := firstn b p) in *. set (h := skipn b p).
    rewrite mle_app_high, E.
    rewrite (mle_ext F _ (fun y => sumn (2 ^ b) (fun x => mle v (vertex b x ++ h) * shift_matrix F sv b o x y))).
    - rewrite mle_sumn. apply sumn_ext. intros x Hx. now rewrite mle_scale.
    - rewrite E. intros y Hy.
      rewrite (mle_ext F _ (fun z => sumn (2 ^ b) (fun x => v (x + 2 ^ b * z)%nat * shift_matrix F sv b o x y))).
      + rewrite mle_sumn. apply sumn_ext. intros x Hx. rewrite mle_low_vertex by auto.
        rewrite <- (Rmul_comm (f_ring F)), <- mle_scale. apply mle_ext. intros. ring.
      + intros z _. rewrite (shift_block sv b o (fun x => v (x + 2 ^ b * z)%nat) y) by auto. cbv zeta.
        assert (M : ((y + 2 ^ b * z) mod 2 ^ b = y)%nat) by (rewrite Nat.mul_comm, Nat.mod_add, Nat.mod_small by lia; lia).
        rewrite M. destruct sv.
        * f_equal. lia.
        * destruct (Nat.leb_spec o y); auto. f_equal. lia.
        * destruct (y + o <? 2 ^ b)%nat; auto. f_equal. lia.
  Qed.

  (** A packed column: a sum over the values packed together. *)
  Lemma mle_packed (B v : nat -> F) d p :
    mle (fun x => sumn (2 ^ d) (fun k => B k * v (x * 2 ^ d + k)%nat)) p =
    sumn (2 ^ d) (fun k => mle v (vertex d k ++ p) * B k).
  Proof.
    rewrite mle_sumn. apply sumn_ext. intros k Hk. rewrite mle_low_vertex by auto.
    rewrite mle_scale, (Rmul_comm (f_ring F)). f_equal. apply mle_ext. intros x _. f_equal. lia.
  Qed.
End Mle.
