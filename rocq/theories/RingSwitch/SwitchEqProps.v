(** C64: the ring-switching equality indicator.  The value that the verifier computes at a point is the multilinear extension
    of the table that the prover computes. *)
Require Import Coq.Arith.Arith Coq.Lists.List Coq.Bool.Bool Coq.setoid_ring.Ring Lia.
From Verif Require Import Base.Fld Base.Lists Base.Sums Base.NatBits Math.MleSpec Compute.CpuModel Compute.CpuProps
  RingSwitch.TensorModel RingSwitch.TransposeProps RingSwitch.TensorProofs RingSwitch.AlgebraProps RingSwitch.SwitchModel.
Import ListNotations.
Local Open Scope nat_scope.

Section EqInd.
  Variable F : field.
  Hypothesis C2 : char2 F.
  Local Open Scope fld_scope.
  Add Ring Fring : (f_ring F).

  (** The specification: the coordinates of [mix * eq(z, x)] over the subfield, combined with the row batching coefficients. *)
  Definition eqind_value (a : eqind F) (x : nat) : F :=
    sumn (2 ^ ei_kappa F a) (fun j => nth j (ei_coeffs F a) 0 * co (ei_ext F a) j (ei_mix F a * eqw (ei_z F a) x)).

  Section Fixed.
    Variable kappa : nat.
    Variable X : ext F kappa.
    Variable coeffs : list F.
    Notation D := (2 ^ kappa)%nat.
    Notation ttensor := (ttensor F kappa X).
    Hypothesis LC : (D <= length coeffs)%nat.
    Definition stp (t : list F) (v h : F) : list F := tadd F (tadd F t (scale_vertical F t v)) (hscale F kappa X t h).
    Lemma stp_length t v h : length t = D -> length (stp t v h) = D.
    Proof. intros H. unfold stp. apply tadd_ok; [apply tadd_ok; [auto|now rewrite scale_v_length]|apply hscale_length]. Qed.
    Lemma eqind_step_ok t v h : length t = D -> eqind_step F kappa X t v h = Ok (stp t v h).
    Proof. intros H. unfold eqind_step. rewrite scale_h_ok by auto. reflexivity. Qed.
    Fixpoint fold (t : list F) (z q : list F) : list F := match z, q with v :: z, h :: q => fold (stp t v h) z q | _, _ => t end.
    Lemma fold_length z : forall t q, length t = D -> length (fold t z q) = D.
    Proof. induction z as [|v z IH]; intros t [|h q] H; cbn [fold]; auto. apply IH. now apply stp_length. Qed.
    Lemma eqind_fold_ok z : forall t q, length t = D -> eqind_fold F kappa X t z q = Ok (fold t z q).
    Proof. induction z as [|v z IH]; intros t [|h q] H; cbn [eqind_fold fold]; auto. rewrite eqind_step_ok by auto. cbn [rbind]. apply IH. now apply stp_length. Qed.
    Lemma hscale_add a b s : length a = D -> length b = D -> hscale F kappa X (tadd F a b) s = tadd F (hscale F kappa X a s) (hscale F kappa X b s).
    Proof.
      intros La Lb. destruct (tensor_scale_horizontal_action F kappa X a b s 0 La Lb) as (_ & _ & _ & H). rewrite !scale_h_ok in H by (auto using tadd_ok). cbn [rbind] in H. now injection H.
    Qed.
    Lemma teq (a b : list F) : length a = D -> length b = D -> (forall i, (i < D)%nat -> nth i a 0 = nth i b 0) -> a = b. Proof. apply list_eq. Qed.
    Lemma stp_add a b v h : length a = D -> length b = D -> stp (tadd F a b) v h = tadd F (stp a v h) (stp b v h).
    Proof.
      intros La Lb. unfold stp. rewrite (scale_v_tadd F kappa) by auto. rewrite hscale_add by auto.
      assert (HA := hscale_length F kappa X a h). assert (HB := hscale_length F kappa X b h). assert (VA := scale_v_length F a v). assert (VB := scale_v_length F b v). rewrite La in VA. rewrite Lb in VB.
      apply teq; repeat apply tadd_ok; auto. intros i Hi.
      repeat (rewrite tadd_nth; [|repeat first [rewrite (tadd_ok F kappa) by (repeat apply tadd_ok; auto)|congruence]]). ring.
    Qed.
    Lemma fold_add z : forall a b q, length a = D -> length b = D -> fold (tadd F a b) z q = tadd F (fold a z q) (fold b z q).
    Proof. induction z as [|v z IH]; intros a b [|h q] La Lb; cbn [fold]; auto. rewrite stp_add by auto. apply IH; now apply stp_length. Qed.
    Lemma stp_tensor a b v h : stp (ttensor a b) v h = tadd F (ttensor (a * (1 - v)) (b * (1 - h))) (ttensor (a * v) (b * h)).
    Proof.
      unfold stp. rewrite scale_v_tensor, hscale_tensor. apply teq; repeat apply tadd_ok; try apply ttensor_length. intros i Hi.
      assert (T := ttensor_length F kappa X).
      rewrite !tadd_nth by (rewrite ?(tadd_ok F kappa) by apply T; congruence). rewrite !ttensor_nth by auto.
      replace (b * (1 - h)) with (b + b * h) by (rewrite (char2_sub F C2); ring). rewrite co_add by auto. rewrite (char2_sub F C2).
      replace (a * (1 + v) * (co X i b + co X i (b * h)) + a * v * co X i (b * h)) with (a * co X i b + a * v * co X i b + a * co X i (b * h) + (1 + 1) * (a * v * co X i (b * h))) by ring.
      rewrite C2. ring.
    Qed.
    (** the functional applied to a vertical element *)
    Definition w (y : F) : F := sumn D (fun j => nth j coeffs 0 * co X j y).
    Lemma fold_tensor z : forall a b q, length q = length z -> vfold F kappa X (fold (ttensor a b) z q) coeffs = b * mle (fun x => w (a * eqw z x)) q.
    Proof.
      induction z as [|v z IH]; intros a b [|h q] LQ; try discriminate; cbn [fold].
      - rewrite mle_nil. cbn [eqw]. replace (a * 1) with a by ring. unfold vfold, w. rewrite trans_ttensor, <- sumn_scale. apply sumn_ext. intros j Hj. rewrite ttensor_nth by auto. ring.
      - cbn [length] in LQ. rewrite stp_tensor, fold_add by apply ttensor_length. rewrite vfold_add by (apply fold_length, ttensor_length). rewrite !IH by lia. rewrite mle_cons, mle_lin.
        assert (H0 : mle (fun x => w (a * (1 - v) * eqw z x)) q = mle (fun x => w (a * eqw (v :: z) (2 * x))) q) by (apply mle_ext; intros x _; cbn [eqw]; rewrite odd_double0, div_double0; f_equal; ring).
        assert (H1 : mle (fun x => w (a * v * eqw z x)) q = mle (fun x => w (a * eqw (v :: z) (2 * x + 1))) q) by (apply mle_ext; intros x _; cbn [eqw]; rewrite odd_double, div_double by lia; cbn [Nat.eqb]; f_equal; ring).
        rewrite H0, H1.
        ring.
    Qed.
  End Fixed.

  (** The verifier's evaluation is the multilinear extension of the specified table, at every point; a point of the wrong length
      is an error. *)
  Theorem eqind_evaluate_correct (a : eqind F) q : (2 ^ ei_kappa F a <= length (ei_coeffs F a))%nat ->
    eqind_evaluate F a q = if (length q =? length (ei_z F a))%nat then Ok (mle (eqind_value a) q) else Err.
  Proof.
    intros LC. unfold eqind_evaluate. destruct (Nat.eqb_spec (length q) (length (ei_z F a))) as [LQ|]; [cbn [negb]|reflexivity].
    rewrite eqind_fold_ok by apply from_vertical_length. cbn [rbind]. rewrite fold_ok; [|apply fold_length, from_vertical_length|exact LC]. f_equal.
    rewrite (from_vertical_tensor F (ei_kappa F a) (ei_ext F a)). rewrite fold_tensor by auto. unfold eqind_value, w. ring.
  Qed.
  Lemma fold_right_op_ext L b1 b2 mat level vec out : b1 level = b2 level -> fold_right_op F L b1 mat level vec out = fold_right_op F L b2 mat level vec out.
  Proof. intros H. unfold fold_right_op, fold_with, compute_right_fold. rewrite H. reflexivity. Qed.
  Lemma nth_flat_to kappa (X : ext F kappa) l i j : (i < length l)%nat -> (j < 2 ^ kappa)%nat -> nth (i * 2 ^ kappa + j) (flat_map (to_bases F kappa X) l) 0 = co X j (nth i l 0).
  Proof.
    revert i. induction l as [|x l IH]; intros i Hi Hj; [cbn in Hi; lia|]. cbn [flat_map]. destruct i as [|i].
    - rewrite app_nth1 by (rewrite to_bases_length; lia). now rewrite to_bases_nth by lia.
    - rewrite app_nth2 by (rewrite to_bases_length; lia). rewrite to_bases_length. replace (S i * 2 ^ kappa + j - 2 ^ kappa)%nat with (i * 2 ^ kappa + j)%nat by lia. cbn [nth]. apply IH; [cbn in Hi; lia|exact Hj].
  Qed.
  (** The prover's table, computed in a zeroed buffer, is the specified one. *)
  Theorem eqind_table_correct (L : nat) (a : eqind F) buffer out : (ei_kappa F a <= L)%nat -> supported (L - ei_kappa F a) = true -> (2 ^ ei_kappa F a <= length (ei_coeffs F a))%nat ->
    length buffer = (2 ^ length (ei_z F a))%nat -> (forall x, (0 < x)%nat -> nth x buffer 0 = 0) -> length out = (2 ^ length (ei_z F a))%nat ->
    eqind_table F L a buffer out = Ok (map (eqind_value a) (seq 0 (2 ^ length (ei_z F a)))).
  Proof.
    intros HK SUP LC LB ZB LO. unfold eqind_table. destruct (Nat.ltb_spec (length (ei_coeffs F a)) (2 ^ ei_kappa F a)); [lia|].
    destruct buffer as [|b0 rest]; [pose proof (pow2_pos (length (ei_z F a))); cbn in LB; lia|].
    destruct (tensor_expand_correct F 0 (ei_z F a) (ei_mix F a :: rest)) as (ev & Ev & Lev & Hev).
    - exact LB.
    - intros x Hx. cbn [Nat.pow] in Hx. etransitivity; [|apply (ZB x); lia]. destruct x; [lia|reflexivity].
    - rewrite Ev. cbn [rbind]. cbn [length] in Lev, LB.
      set (bs := fun l => if (l =? L - ei_kappa F a)%nat then to_bases F (ei_kappa F a) (ei_ext F a) else fun _ : F => repeat (0 : F) (2 ^ (L - l))).
      rewrite (fold_right_op_ext L (fun _ => to_bases F (ei_kappa F a) (ei_ext F a)) bs) by (unfold bs; now rewrite Nat.eqb_refl).
      assert (BL : forall level x, (level <= L)%nat -> length (bs level x) = (2 ^ (L - level))%nat).
      { intros level x Hl. unfold bs. destruct (Nat.eqb_spec level (L - ei_kappa F a)) as [->|]; [|apply repeat_length]. rewrite to_bases_length. f_equal. lia. }
      assert (BE : bs (L - ei_kappa F a)%nat = to_bases F (ei_kappa F a) (ei_ext F a)) by (unfold bs; now rewrite Nat.eqb_refl).
      clearbody bs.
      destruct (fold_right_correct F L bs BL ev (firstn (2 ^ ei_kappa F a) (ei_coeffs F a)) out (L - ei_kappa F a) (length (ei_z F a)) (ei_kappa F a)) as (r & Er & Lr & Hr); auto; try lia.
      + rewrite (elems_len F L bs BL) by lia. rewrite Lev, LB. rewrite Nat.pow_add_r. repeat f_equal. lia.
      + rewrite firstn_length. lia.
      + rewrite Er. f_equal. apply (nth_ext _ _ 0 0); [now rewrite map_length, seq_length|]. rewrite Lr. intros i Hi. rewrite Hr by auto. rewrite (nth_map_seq (eqind_value a) _ i 0) by auto. unfold eqind_value. apply sumn_ext. intros j Hj.
        rewrite AlgebraProps.nth_firstn_lt by auto. f_equal. rewrite BE. rewrite nth_flat_to by (auto; congruence). rewrite Hev by (cbn [length]; lia). rewrite Nat.pow_0_r, Nat.mod_1_r, Nat.div_1_r. reflexivity.
  Qed.
  (** The verifier evaluates the multilinear whose values the prover tabulates. *)
  Theorem eqind_prover_verifier (L : nat) (a : eqind F) buffer out table q : (ei_kappa F a <= L)%nat -> supported (L - ei_kappa F a) = true -> (2 ^ ei_kappa F a <= length (ei_coeffs F a))%nat ->
    length buffer = (2 ^ length (ei_z F a))%nat -> (forall x, (0 < x)%nat -> nth x buffer 0 = 0) -> length out = (2 ^ length (ei_z F a))%nat ->
    eqind_table F L a buffer out = Ok table -> length q = length (ei_z F a) -> eqind_evaluate F a q = Ok (mle (fun x => nth x table 0) q).
  Proof.
    intros HK SUP LC LB ZB LO ET LQ. rewrite eqind_evaluate_correct by auto. rewrite LQ, Nat.eqb_refl. f_equal. rewrite eqind_table_correct in ET by auto. injection ET as <-. apply mle_ext. rewrite LQ. intros x Hx. now rewrite nth_map_seq.
  Qed.
  (** Construction fails exactly when there are too few row-batching coefficients. *)
  Theorem eqind_new_correct kappa (X : ext F kappa) z coeffs mix :
    eqind_new F kappa X z coeffs mix = if (2 ^ kappa <=? length coeffs)%nat then Ok (mkEqInd F kappa X z coeffs mix) else Err.
  Proof. unfold eqind_new. destruct (Nat.ltb_spec (length coeffs) (2 ^ kappa)); destruct (Nat.leb_spec (2 ^ kappa) (length coeffs)); auto; lia. Qed.
End EqInd.
