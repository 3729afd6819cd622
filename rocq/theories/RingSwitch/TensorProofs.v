(** Tensor algebra: coordinates, transposition and folding. *)
Require Import Coq.Arith.Arith Coq.Lists.List Coq.Bool.Bool Lia.
From Verif Require Import Base.Fld Base.Lists Base.Sums Base.NatBits RingSwitch.TensorModel RingSwitch.TransposeProps.
Import ListNotations.
Local Open Scope nat_scope.

Section Tensor.
  Variable F : field.
  Variable kappa : nat.
  Variable E : ext F kappa.
  Local Open Scope fld_scope.
  Add Ring Fring : (f_ring F).
  Notation D := (2 ^ kappa)%nat.
  Notation co := (co E).
  Notation beta := (beta E).

  Lemma co_0 i : (i < D)%nat -> co i 0 = 0.
  Proof. intros Hi. assert (H := co_add F kappa E i 0 0 Hi). replace (0 + 0) with (0 : F) in H by ring. transitivity (co i 0 + co i 0 - co i 0); [ring|]. rewrite <- H. ring. Qed.
  Lemma co_sumn n f i : (i < D)%nat -> co i (sumn n f) = sumn n (fun k => co i (f k)).
  Proof. intros Hi. induction n as [|n IH]; [rewrite !sumn_0; now apply co_0|]. rewrite !sumn_S, co_add by auto. now rewrite IH. Qed.
  (** An element given by subfield coordinates has these coordinates. *)
  Lemma co_comb f k : (forall i, (i < D)%nat -> insub E (f i)) -> (k < D)%nat -> co k (sumn D (fun i => f i * beta i)) = f k.
  Proof.
    intros Hf Hk. rewrite co_sumn by auto.
    rewrite (sumn_ext F D _ (fun i => f i * (if (k =? i)%nat then 1 else 0))).
    - rewrite (sumn_single F D k); [rewrite Nat.eqb_refl; ring|exact Hk|]. intros i Hi Hne. rewrite (proj2 (Nat.eqb_neq k i)) by auto. ring.
    - intros i Hi. rewrite co_smul by auto. now rewrite co_beta.
  Qed.

  (** What transposition computes. *)
  Definition trans (t : list F) : list F := map (fun j => sumn D (fun i => co j (nth i t 0) * beta i)) (seq 0 D).
  Lemma trans_length t : length (trans t) = D. Proof. unfold trans. now rewrite map_length, seq_length. Qed.
  Lemma trans_nth t j : (j < D)%nat -> nth j (trans t) 0 = sumn D (fun i => co j (nth i t 0) * beta i).
  Proof. intros Hj. unfold trans. now rewrite (nth_map_seq (fun j => sumn D (fun i => co j (nth i t 0) * beta i)) D j 0). Qed.

  Lemma to_bases_nth x i : (i < D)%nat -> nth i (to_bases F kappa E x) 0 = co i x.
  Proof. intros Hi. unfold to_bases. now rewrite (nth_map_seq (fun i => co i x) D i 0). Qed.
  Lemma to_bases_length x : length (to_bases F kappa E x) = D. Proof. unfold to_bases. now rewrite map_length, seq_length. Qed.

  Lemma list_eq (a b : list F) : length a = D -> length b = D -> (forall i, (i < D)%nat -> nth i a 0 = nth i b 0) -> a = b.
  Proof. intros La Lb H. apply (nth_ext a b 0 0); [congruence|]. rewrite La. exact H. Qed.

  Lemma transpose_ok t : length t = D -> transpose F kappa E t = Ok (trans t).
  Proof.
    intros L. unfold transpose.
    destruct (square_transpose_correct (0 : F) kappa kappa 0 (map (to_bases F kappa E) t)) as (r & Er & Lr & Fr & H).
    - lia.
    - now rewrite map_length.
    - apply Forall_map, Forall_forall. intros x _. apply to_bases_length.
    - rewrite Er. f_equal. rewrite map_length, L in Lr. apply list_eq; [now rewrite map_length|apply trans_length|].
      intros j Hj. rewrite trans_nth by auto. rewrite (nth_indep _ 0 (of_bases F kappa E [])) by (rewrite map_length, Lr; exact Hj). rewrite (map_nth (of_bases F kappa E)). unfold of_bases. apply sumn_ext. intros i Hi. f_equal.
      specialize (H j 0%nat 0%nat i Hj). rewrite Nat.sub_diag in H. cbn [Nat.pow] in H. rewrite !Nat.mul_1_r, !Nat.add_0_r, !Nat.mul_0_l, !Nat.add_0_l in H. rewrite H by lia.
      rewrite (nth_indep _ [] (to_bases F kappa E 0)) by (rewrite map_length, L; exact Hi). rewrite (map_nth (to_bases F kappa E)). now apply to_bases_nth.
  Qed.
  Lemma trans_co t i j : (i < D)%nat -> (j < D)%nat -> co i (nth j (trans t) 0) = co j (nth i t 0).
  Proof. intros Hi Hj. rewrite trans_nth by auto. apply (co_comb (fun i => co j (nth i t 0))); auto. intros. now apply co_insub. Qed.
  Lemma co_ext x y : (forall i, (i < D)%nat -> co i x = co i y) -> x = y.
  Proof. intros H. rewrite <- (co_sum F kappa E x), <- (co_sum F kappa E y). apply sumn_ext. intros i Hi. now rewrite H. Qed.
  Lemma trans_trans t : length t = D -> trans (trans t) = t.
  Proof.
    intros L. apply list_eq; [apply trans_length|exact L|]. intros i Hi. apply co_ext. intros j Hj. rewrite !trans_co by auto. reflexivity.
  Qed.

  Lemma scale_v_length t s : length (scale_vertical F t s) = length t. Proof. apply map_length. Qed.
  Lemma scale_v_nth t s i : nth i (scale_vertical F t s) 0 = nth i t 0 * s.
  Proof. unfold scale_vertical. replace (0 : F) with (0 * s) at 1 by ring. apply (map_nth (fun x => x * s)). Qed.
  Definition hscale (t : list F) (s : F) : list F := trans (scale_vertical F (trans t) s).
  Lemma scale_h_ok t s : length t = D -> scale_horizontal F kappa E t s = Ok (hscale t s).
  Proof. intros L. unfold scale_horizontal. rewrite transpose_ok by auto. cbn [rbind]. rewrite transpose_ok; [reflexivity|]. rewrite scale_v_length. apply trans_length. Qed.
  Lemma hscale_length t s : length (hscale t s) = D. Proof. apply trans_length. Qed.
  Lemma trans_hscale t s : trans (hscale t s) = scale_vertical F (trans t) s.
  Proof. apply trans_trans. rewrite scale_v_length. apply trans_length. Qed.

  Lemma combine_sum (a b : list F) n : length a = n -> (n <= length b)%nat -> fsum (map (fun p => fst p * snd p) (combine a b)) = sumn n (fun i => nth i a 0 * nth i b 0).
  Proof.
    intros La Lb. rewrite fsum_nth, map_length, combine_length, La, Nat.min_l by lia. apply sumn_ext. intros i Hi.
    rewrite (nth_indep _ 0 ((fun p : F * F => fst p * snd p) (0, 0))) by (rewrite map_length, combine_length; lia). rewrite (map_nth (fun p : F * F => fst p * snd p)).
    rewrite (nth_error_nth (combine a b) i (0, 0) (x := (nth i a 0, nth i b 0))); [reflexivity|].
    clear -La Lb Hi. revert b n i La Lb Hi. induction a as [|x a IH]; intros [|y b] n i La Lb Hi; cbn [length] in *; try lia. destruct i; [reflexivity|]. cbn [combine nth_error nth]. apply (IH b (n - 1)%nat); lia.
  Qed.
  Definition vfold (t coeffs : list F) : F := sumn D (fun j => nth j (trans t) 0 * nth j coeffs 0).
  Lemma fold_ok t coeffs : length t = D -> (D <= length coeffs)%nat -> fold_vertical F kappa E t coeffs = Ok (vfold t coeffs).
  Proof. intros L Lc. unfold fold_vertical. rewrite transpose_ok by auto. cbn [rbind]. f_equal. apply combine_sum; [apply trans_length|exact Lc]. Qed.

  Lemma tadd_length a : forall b, length b = length a -> length (tadd F a b) = length a.
  Proof. induction a as [|x a IH]; intros [|y b] L; try discriminate; cbn [tadd length] in *; auto. Qed.
  Lemma tadd_nth a : forall b i, length b = length a -> nth i (tadd F a b) 0 = nth i a 0 + nth i b 0.
  Proof.
    induction a as [|x a IH]; intros [|y b] i L; try discriminate; cbn [tadd]; [destruct i; cbn; ring|]. cbn [length] in L. destruct i; cbn [nth]; [reflexivity|]. apply IH. lia.
  Qed.
  Lemma trans_add a b : length a = D -> length b = D -> trans (tadd F a b) = tadd F (trans a) (trans b).
  Proof.
    intros La Lb. apply list_eq; [apply trans_length|rewrite tadd_length; rewrite ?trans_length; reflexivity|]. intros j Hj. rewrite tadd_nth by (now rewrite !trans_length). rewrite !trans_nth by auto. rewrite <- sumn_add. apply sumn_ext. intros i Hi.
    rewrite tadd_nth by congruence. rewrite co_add by auto. ring.
  Qed.
  Lemma vfold_add a b c : length a = D -> length b = D -> vfold (tadd F a b) c = vfold a c + vfold b c.
  Proof. intros La Lb. unfold vfold. rewrite trans_add by auto. rewrite <- sumn_add. apply sumn_ext. intros j Hj. rewrite tadd_nth by (now rewrite !trans_length). ring. Qed.
  Lemma vfold_hscale t s c : length t = D -> vfold (hscale t s) c = s * vfold t c.
  Proof. intros L. unfold vfold. rewrite trans_hscale. rewrite <- sumn_scale. apply sumn_ext. intros j Hj. rewrite scale_v_nth. ring. Qed.
End Tensor.
