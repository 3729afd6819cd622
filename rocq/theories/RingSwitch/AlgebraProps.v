(** C51: the tensor algebra.  [ttensor v h] is the tensor product of the vertical element v and the horizontal element h; an
    element of the algebra is the list of its vertical elements, one for each of the [2^kappa] basis vectors. *)
Require Import Coq.Arith.Arith Coq.Lists.List Coq.Bool.Bool Coq.setoid_ring.Ring Lia.
From Verif Require Import Base.Fld Base.Lists Base.Sums Base.NatBits RingSwitch.TensorModel RingSwitch.TransposeProps RingSwitch.TensorProofs.
Import ListNotations.
Local Open Scope nat_scope.

Section Algebra.
  Variable F : field.
  Variable kappa : nat.
  Variable E : ext F kappa.
  Local Open Scope fld_scope.
  Add Ring Fring : (f_ring F).
  Notation D := (2 ^ kappa)%nat.
  Notation co := (co E).
  Notation beta := (beta E).
  Notation ttensor := (ttensor F kappa E).
  Notation transpose := (transpose F kappa E).
  Notation scale_vertical := (scale_vertical F).
  Notation scale_horizontal := (scale_horizontal F kappa E).
  Notation fold_vertical := (fold_vertical F kappa E).
  Notation tadd := (tadd F).
  Notation trans := (trans F kappa E).
  Notation hscale := (hscale F kappa E).
  Let Dpos : (0 < D)%nat := pow2_pos kappa.

  Lemma nth_upd_eq (l : list F) i v : (i < length l)%nat -> nth i (upd l i v) 0 = v.
  Proof. intros H. apply nth_error_nth. now apply nth_error_upd_eq. Qed.
  Lemma nth_upd_neq (l : list F) i j v : i <> j -> nth i (upd l j v) 0 = nth i l 0.
  Proof. revert i j. induction l as [|x l IH]; intros [|i] [|j] H; cbn [upd nth]; auto; try congruence. Qed.
  Lemma nth_firstn_lt (l : list F) n i : (i < n)%nat -> nth i (firstn n l) 0 = nth i l 0.
  Proof. revert n i. induction l as [|x l IH]; intros [|n] [|i] H; cbn [firstn nth]; auto; try lia. apply IH. lia. Qed.
  Lemma ttensor_length v h : length (ttensor v h) = D. Proof. unfold TensorModel.ttensor. now rewrite map_length, to_bases_length. Qed.
  Lemma ttensor_nth v h i : (i < D)%nat -> nth i (ttensor v h) 0 = v * co i h.
  Proof. intros Hi. unfold TensorModel.ttensor, to_bases. rewrite map_map. now rewrite (nth_map_seq (fun i => v * co i h) D i 0). Qed.
  Lemma trans_ttensor v h : trans (ttensor v h) = ttensor h v.
  Proof.
    apply (list_eq F kappa); [apply trans_length|apply ttensor_length|]. intros j Hj. rewrite trans_nth, ttensor_nth by auto.
    transitivity (sumn D (fun i => co j v * (co i h * beta i))).
    - apply sumn_ext. intros i Hi. rewrite ttensor_nth by auto. replace (v * co i h) with (co i h * v) by ring. rewrite co_smul; [ring|exact Hj|now apply co_insub].
    - rewrite sumn_scale, co_sum. ring.
  Qed.
  Lemma one_co i : (i < D)%nat -> co i 1 = if (i =? 0)%nat then 1 else 0.
  Proof. intros Hi. rewrite <- (beta_0 F kappa E) at 1. now rewrite co_beta. Qed.
  Lemma from_vertical_length x : length (from_vertical F kappa x) = D. Proof. unfold from_vertical. now rewrite upd_length, repeat_length. Qed.
  Lemma from_vertical_nth x i : (i < D)%nat -> nth i (from_vertical F kappa x) 0 = if (i =? 0)%nat then x else 0.
  Proof.
    intros Hi. unfold from_vertical. destruct (Nat.eqb_spec i 0) as [->|N]; [rewrite nth_upd_eq; [reflexivity|rewrite repeat_length; exact Hi]|].
    rewrite nth_upd_neq by auto. apply nth_repeat.
  Qed.
  Lemma from_vertical_tensor x : from_vertical F kappa x = ttensor x 1.
  Proof.
    apply (list_eq F kappa); [apply from_vertical_length|apply ttensor_length|]. intros i Hi. rewrite from_vertical_nth, ttensor_nth, one_co by auto.
    destruct (i =? 0)%nat; ring.
  Qed.
  Lemma scale_v_tensor v h s : scale_vertical (ttensor v h) s = ttensor (v * s) h.
  Proof.
    apply (list_eq F kappa); [rewrite scale_v_length; apply ttensor_length|apply ttensor_length|]. intros i Hi. rewrite scale_v_nth, !ttensor_nth by auto. ring.
  Qed.
  Lemma hscale_tensor v h s : hscale (ttensor v h) s = ttensor v (h * s).
  Proof. unfold TensorProofs.hscale. now rewrite trans_ttensor, scale_v_tensor, trans_ttensor. Qed.
  Lemma hscale_nth t s i : length t = D -> (i < D)%nat -> nth i (hscale t s) 0 = sumn D (fun k => nth k t 0 * co i (beta k * s)).
  Proof.
    intros L Hi. unfold TensorProofs.hscale. rewrite trans_nth by auto.
    transitivity (sumn D (fun j => sumn D (fun k => co j (nth k t 0) * beta j * co i (beta k * s)))).
    - apply sumn_ext. intros j Hj. rewrite scale_v_nth, trans_nth by auto. rewrite <- sumn_scale_r. rewrite (co_sumn F kappa E) by auto. rewrite <- sumn_scale_r. apply sumn_ext. intros k Hk.
      replace (co j (nth k t 0) * beta k * s) with (co j (nth k t 0) * (beta k * s)) by ring. rewrite co_smul; [ring|exact Hi|now apply co_insub].
    - rewrite sumn_swap. apply sumn_ext. intros k Hk. rewrite sumn_scale_r, co_sum. reflexivity.
  Qed.
  Lemma scale_comm t s u : length t = D -> hscale (scale_vertical t s) u = scale_vertical (hscale t u) s.
  Proof.
    intros L. assert (L' : length (scale_vertical t s) = D) by (now rewrite scale_v_length).
    apply (list_eq F kappa); [apply hscale_length|rewrite scale_v_length; apply hscale_length|]. intros i Hi. rewrite scale_v_nth, !hscale_nth by auto. rewrite <- sumn_scale_r. apply sumn_ext. intros k Hk. rewrite scale_v_nth. ring.
  Qed.
  Lemma tadd_ok a b : length a = D -> length b = D -> length (tadd a b) = D. Proof. intros. rewrite tadd_length; congruence. Qed.
  Lemma scale_v_tadd a b s : length a = D -> length b = D -> scale_vertical (tadd a b) s = tadd (scale_vertical a s) (scale_vertical b s).
  Proof.
    intros La Lb. apply (list_eq F kappa); [rewrite scale_v_length; now apply tadd_ok|apply tadd_ok; now rewrite scale_v_length|].
    intros i Hi. rewrite scale_v_nth, !tadd_nth by (rewrite ?scale_v_length; congruence). rewrite !scale_v_nth. ring.
  Qed.
  Lemma scale_v_add a s u : length a = D -> scale_vertical a (s + u) = tadd (scale_vertical a s) (scale_vertical a u).
  Proof.
    intros La. apply (list_eq F kappa); [now rewrite scale_v_length|apply tadd_ok; now rewrite scale_v_length|].
    intros i Hi. rewrite scale_v_nth, !tadd_nth by (rewrite ?scale_v_length; congruence). rewrite !scale_v_nth. ring.
  Qed.
  Lemma scale_v_mul a s u : scale_vertical a (s * u) = scale_vertical (scale_vertical a s) u.
  Proof. unfold TensorModel.scale_vertical. rewrite map_map. apply map_ext. intros x. ring. Qed.
  Lemma scale_v_1 a : scale_vertical a 1 = a.
  Proof. unfold TensorModel.scale_vertical. rewrite <- (map_id a) at 2. apply map_ext. intros x. ring. Qed.

  (** Transposition never fails; it transposes the [2^kappa] by [2^kappa] matrix of coordinates over the subfield, it is an
      involution, and it exchanges the two factors of a tensor product. *)
  Theorem tensor_transpose t : length t = D ->
    exists t', transpose t = Ok t' /\ length t' = D /\ (forall i j, (i < D)%nat -> (j < D)%nat -> co i (nth j t' 0) = co j (nth i t 0)) /\ transpose t' = Ok t.
  Proof.
    intros L. exists (trans t). rewrite transpose_ok by auto. split; [reflexivity|]. split; [apply trans_length|]. split; [intros; now apply trans_co|].
    rewrite transpose_ok by apply trans_length. now rewrite trans_trans.
  Qed.
  Theorem tensor_transpose_product v h : transpose (ttensor v h) = Ok (ttensor h v).
  Proof. rewrite transpose_ok by apply ttensor_length. now rewrite trans_ttensor. Qed.
  (** It exchanges vertical and horizontal scaling. *)
  Theorem tensor_transpose_scale t s : length t = D ->
    transpose (scale_vertical t s) = (try t' <- transpose t; scale_horizontal t' s) /\
    (try r <- scale_horizontal t s; transpose r) = (try t' <- transpose t; Ok (scale_vertical t' s)).
  Proof.
    intros L. rewrite !(transpose_ok F kappa E t) by auto. rewrite transpose_ok by (now rewrite scale_v_length). cbn [rbind]. rewrite !scale_h_ok by (auto using trans_length). cbn [rbind].
    split; [unfold TensorProofs.hscale; now rewrite trans_trans|]. rewrite transpose_ok by apply hscale_length. now rewrite trans_hscale.
  Qed.
  (** Vertical and horizontal scaling are actions of the field: unital, multiplicative, additive in both arguments. *)
  Theorem tensor_scale_vertical_action a b s u : length a = D -> length b = D ->
    scale_vertical a 1 = a /\ scale_vertical a (s * u) = scale_vertical (scale_vertical a s) u /\
    scale_vertical a (s + u) = tadd (scale_vertical a s) (scale_vertical a u) /\ scale_vertical (tadd a b) s = tadd (scale_vertical a s) (scale_vertical b s).
  Proof. intros La Lb. auto using scale_v_1, scale_v_mul, scale_v_add, scale_v_tadd. Qed.
  Theorem tensor_scale_horizontal_action a b s u : length a = D -> length b = D ->
    scale_horizontal a 1 = Ok a /\ scale_horizontal a (s * u) = (try x <- scale_horizontal a s; scale_horizontal x u) /\
    scale_horizontal a (s + u) = (try x <- scale_horizontal a s; try y <- scale_horizontal a u; Ok (tadd x y)) /\
    scale_horizontal (tadd a b) s = (try x <- scale_horizontal a s; try y <- scale_horizontal b s; Ok (tadd x y)).
  Proof.
    intros La Lb. rewrite !(scale_h_ok F kappa E) by (auto using tadd_ok). cbn [rbind]. rewrite !(scale_h_ok F kappa E) by (auto using hscale_length). unfold TensorProofs.hscale.
    rewrite !trans_trans by (rewrite ?scale_v_length; auto using trans_length).
    split; [now rewrite scale_v_1, trans_trans|]. split; [now rewrite scale_v_mul|]. split.
    - rewrite scale_v_add by apply trans_length. rewrite trans_add by (rewrite scale_v_length; apply trans_length). reflexivity.
    - rewrite trans_add, scale_v_tadd by auto using trans_length. rewrite trans_add by (rewrite scale_v_length; apply trans_length). reflexivity.
  Qed.
  (** The two actions commute. *)
  Theorem tensor_scale_commute t s u : length t = D -> scale_horizontal (scale_vertical t s) u = (try x <- scale_horizontal t u; Ok (scale_vertical x s)).
  Proof. intros L. rewrite !scale_h_ok by (rewrite ?scale_v_length; auto). cbn [rbind]. now rewrite scale_comm. Qed.
  (** The vertical subring: its elements are the products with one, and scaling one horizontally gives the tensor product. *)
  Theorem tensor_product_scaling v h s :
    from_vertical F kappa v = ttensor v 1 /\ tone F kappa = ttensor 1 1 /\ scale_horizontal (from_vertical F kappa v) h = Ok (ttensor v h) /\
    scale_vertical (ttensor v h) s = ttensor (v * s) h /\ scale_horizontal (ttensor v h) s = Ok (ttensor v (h * s)).
  Proof.
    split; [apply from_vertical_tensor|]. split; [exact (from_vertical_tensor 1)|]. rewrite from_vertical_tensor. rewrite !scale_h_ok by apply ttensor_length. rewrite !hscale_tensor, scale_v_tensor.
    repeat split; repeat f_equal; ring.
  Qed.
  (** The algebra is spanned by the tensor products: an element is the sum of its vertical elements times the basis. *)
  Lemma tsum_nth l : Forall (fun t => length t = D) l -> forall acc, length acc = D -> length (fold_left tadd l acc) = D /\ forall i, (i < D)%nat -> nth i (fold_left tadd l acc) 0 = nth i acc 0 + fsum (map (fun t => nth i t 0) l).
  Proof.
    intros Fl. induction Fl as [|t l Ht Fl IH]; intros acc La; cbn [fold_left map].
    - split; [exact La|]. intros i Hi. cbn. ring.
    - destruct (IH (tadd acc t)) as [L H]; [now apply tadd_ok|]. split; [exact L|]. intros i Hi. rewrite H, tadd_nth by (auto; congruence). cbn [fsum fold_right]. ring.
  Qed.
  Theorem tensor_span t : length t = D -> t = tsum F kappa (map (fun i => ttensor (nth i t 0) (beta i)) (seq 0 D)).
  Proof.
    intros L. unfold tsum. destruct (tsum_nth (map (fun i => ttensor (nth i t 0) (beta i)) (seq 0 D))) with (acc := tzero F kappa) as [L' H].
    - apply Forall_map, Forall_forall. intros i _. apply ttensor_length.
    - apply repeat_length.
    - apply (list_eq F kappa); auto. intros i Hi. rewrite H by auto. unfold tzero. rewrite nth_repeat, map_map, fsum_nth, map_length, seq_length.
      rewrite (sumn_single F D i); [|exact Hi|].
      + rewrite (nth_map_seq (fun x => nth i (ttensor (nth x t 0) (beta x)) 0) D i 0) by auto. rewrite ttensor_nth, co_beta, Nat.eqb_refl by auto. ring.
      + intros k Hk Hne. rewrite (nth_map_seq (fun x => nth i (ttensor (nth x t 0) (beta x)) 0) D k 0) by auto. rewrite ttensor_nth, co_beta by auto. rewrite (proj2 (Nat.eqb_neq i k)) by auto. ring.
  Qed.
  (** Extraction succeeds exactly on the vertical subring. *)
  Theorem tensor_extract_vertical t x : length t = D -> (try_extract_vertical F t = Some x <-> t = from_vertical F kappa x).
  Proof.
    intros L. unfold try_extract_vertical. destruct (forallb _ _) eqn:B.
    - assert (Z : forall i, (0 < i < D)%nat -> nth i t 0 = 0).
      { intros i Hi. rewrite forallb_forall in B. destruct t as [|a t]; [cbn in L; lia|]. cbn [skipn] in B. destruct i; [lia|]. cbn [nth]. cbn [length] in L.
        destruct (feqb_spec F (nth i t 0) 0) as [e|n]; [exact e|]. exfalso. specialize (B (nth i t 0) ltac:(apply nth_In; lia)). now destruct (feqb_spec F (nth i t 0) 0). }
      split.
      + intros [= <-]. apply (list_eq F kappa); [exact L|apply from_vertical_length|]. intros i Hi. rewrite from_vertical_nth by auto. destruct (Nat.eqb_spec i 0) as [->|]; [reflexivity|apply Z; lia].
      + intros ->. f_equal. rewrite from_vertical_nth by auto. reflexivity.
    - split; [discriminate|]. intros ->. exfalso. assert (X : forallb (fun x => feqb x 0) (skipn 1 (from_vertical F kappa x)) = true); [|congruence].
      apply forallb_forall. intros y Hy. unfold from_vertical in Hy. replace (skipn 1 (upd (repeat 0 D) 0 x)) with (repeat (0 : F) (D - 1)) in Hy.
      + apply repeat_spec in Hy. subst. apply feqb_refl.
      + clear -F Dpos. generalize Dpos. generalize D. clear. intros [|n] H; [lia|]. cbn [repeat upd skipn]. f_equal. lia.
  Qed.
  (** Folding: with at least [2^kappa] coefficients it is the functional that is additive, linear for the horizontal action, and
      maps a tensor product to the horizontal factor times the vertical factor's coordinates weighted by the coefficients; these
      laws determine it, by [tensor_span]. *)
  Theorem tensor_fold a b s v h coeffs : length a = D -> length b = D -> (D <= length coeffs)%nat ->
    fold_vertical (tadd a b) coeffs = (try x <- fold_vertical a coeffs; try y <- fold_vertical b coeffs; Ok (x + y)) /\
    (try r <- scale_horizontal a s; fold_vertical r coeffs) = (try x <- fold_vertical a coeffs; Ok (s * x)) /\
    fold_vertical (ttensor v h) coeffs = Ok (h * sumn D (fun j => nth j coeffs 0 * co j v)).
  Proof.
    intros La Lb Lc. rewrite scale_h_ok by auto. cbn [rbind]. rewrite !fold_ok by (auto using tadd_ok, hscale_length, ttensor_length). cbn [rbind]. rewrite vfold_add, vfold_hscale by auto.
    repeat split. f_equal. unfold vfold. rewrite trans_ttensor. rewrite <- sumn_scale. apply sumn_ext. intros j Hj. rewrite ttensor_nth by auto. ring.
  Qed.
  (** Building an element pads with zeros or truncates. *)
  Theorem tensor_new elems : length (tnew F kappa elems) = D /\ forall i, (i < D)%nat -> nth i (tnew F kappa elems) 0 = nth i elems 0.
  Proof.
    unfold tnew. split; [rewrite app_length, firstn_length, repeat_length; lia|]. intros i Hi. destruct (lt_dec i (length elems)) as [H|H].
    - rewrite app_nth1 by (rewrite firstn_length; lia). now rewrite nth_firstn_lt.
    - rewrite app_nth2 by (rewrite firstn_length; lia). rewrite nth_repeat. symmetry. apply nth_overflow. lia.
  Qed.
End Algebra.
