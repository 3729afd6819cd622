(** C14, C15, C16: evaluation, partial evaluation, one-variable folds, zero padding. *)
Require Import Coq.setoid_ring.Ring Coq.Arith.Arith Coq.Lists.List Coq.Bool.Bool Coq.NArith.NArith Lia.
From Verif Require Import Base.Fld Base.Lists Base.Sums Math.MleSpec Math.MleModel Math.TensorProps
  Math.MleProofs Field.Examples.
Import ListNotations.
Local Close Scope N_scope.
Local Open Scope nat_scope.

Section Props.
  Variable F : field.
  Local Open Scope fld_scope.
  Add Ring Fring : (f_ring F).

  (** A multilinear extension as the constructors build it: [2^mu] scalars, or one packed element. *)
  Definition mle_wf (lw : nat) (m : mlext F) : Prop :=
    length (me_evals m) = (2 ^ (me_mu m - lw) * 2 ^ lw)%nat.

  (** The table of a multilinear extension. *)
  Definition table (m : mlext F) (x : nat) : F := nth x (me_evals m) 0.

  Lemma wf_ge lw m : mle_wf lw m -> (2 ^ me_mu m <= length (me_evals m))%nat.
  Proof. intros H. rewrite H, pow_sub_mul. apply pow2_le. lia. Qed.

  (** The constructor accepts exactly the well-formed buffers. *)
  Theorem me_new_correct lw n (v : list F) k :
    length v = (k * 2 ^ lw)%nat ->
    if (k =? 2 ^ (n - lw))%nat then me_new lw n v = Ok (mkMle n v) /\ mle_wf lw (mkMle n v)
    else me_new lw n v = Err.
  Proof.
    intros HL. unfold me_new, is_pow2, mle_wf. cbn [me_mu me_evals].
    replace (length v / 2 ^ lw)%nat with k by (rewrite HL, Nat.div_mul; auto; apply Nat.pow_nonzero; lia).
    destruct (Nat.eqb_spec k (2 ^ (n - lw))) as [E|NE].
    - split; [|now rewrite <- E].
      assert (EL : Nat.log2 k = (n - lw)%nat) by (rewrite E; apply Nat.log2_pow2; lia).
      rewrite EL, <- E, Nat.eqb_refl. pose proof (pow2_gt0 (n - lw)).
      rewrite (proj2 (Nat.ltb_lt 0 k)) by lia. cbn [andb negb].
      destruct (Nat.ltb_spec n lw) as [L|L].
      + replace k with 1%nat by (rewrite E; replace (n - lw)%nat with 0%nat by lia; reflexivity). reflexivity.
      + rewrite (proj2 (Nat.eqb_eq (lw + (n - lw)) n)) by lia. reflexivity.
    - destruct ((0 <? k)%nat && (2 ^ Nat.log2 k =? k)%nat)%bool eqn:P; auto. cbn [negb].
      apply andb_true_iff in P. destruct P as [_ P]. apply Nat.eqb_eq in P.
      destruct (Nat.ltb_spec n lw) as [L|L].
      + destruct (Nat.eqb_spec k 1) as [->|]; auto. exfalso. apply NE.
        replace (n - lw)%nat with 0%nat by lia. reflexivity.
      + destruct (Nat.eqb_spec (lw + Nat.log2 k) n) as [E|]; auto. exfalso. apply NE.
        rewrite <- P. f_equal. lia.
  Qed.

  Theorem me_from_values_correct lw (v : list F) k :
    length v = (2 ^ k * 2 ^ lw)%nat ->
    me_from_values lw v = Ok (mkMle (k + lw) v) /\ mle_wf lw (mkMle (k + lw) v).
  Proof.
    intros HL. unfold me_from_values, is_pow2, mle_wf. cbn [me_mu me_evals].
    replace (length v / 2 ^ lw)%nat with (2 ^ k)%nat by (rewrite HL, Nat.div_mul; auto; apply Nat.pow_nonzero; lia).
    rewrite Nat.log2_pow2, Nat.eqb_refl, (proj2 (Nat.ltb_lt 0 (2 ^ k))) by (try apply pow2_gt0; lia).
    split; auto. now replace (k + lw - lw)%nat with k by lia.
  Qed.

  (** [evaluate_on_hypercube] returns the stored value, or an error out of range. *)
  Theorem evaluate_on_hypercube_correct lw m x :
    mle_wf lw m ->
    evaluate_on_hypercube lw m x = if (x <? 2 ^ me_mu m)%nat then Ok (table m x) else Err.
  Proof.
    intros HW. pose proof (wf_ge lw m HW) as G. unfold evaluate_on_hypercube.
    destruct (Nat.leb_spec (2 ^ me_mu m) x) as [L|L], (Nat.ltb_spec x (2 ^ me_mu m)); try lia; auto.
    pose proof (Nat.div_mod x (2 ^ lw) ltac:(apply Nat.pow_nonzero; lia)) as D.
    replace (x / 2 ^ lw * 2 ^ lw + x mod 2 ^ lw)%nat with x by lia.
    rewrite (nth_error_nth_eq _ x 0) by lia.
    destruct (Nat.leb_spec (length (me_evals m) / 2 ^ lw) (x / 2 ^ lw)) as [X|X]; [|reflexivity].
    exfalso. rewrite HW, Nat.div_mul in X by (apply Nat.pow_nonzero; lia).
    apply (Nat.mul_le_mono_r _ _ (2 ^ lw)) in X. rewrite <- HW in X. lia.
  Qed.

  (** C14: [evaluate] is the multilinear extension (of Math/MleSpec.v); a query of another length is
      an error. *)
  Theorem evaluate_correct lw le c m q point :
    mle_wf lw m -> query_holds le c q point ->
    me_evaluate lw le m q =
      if (length point =? me_mu m)%nat then Ok (mle (table m) point) else Err.
  Proof.
    intros HW HQ. unfold me_evaluate. rewrite (proj1 HQ), (Nat.eqb_sym (me_mu m)).
    destruct (Nat.eqb_spec (length point) (me_mu m)) as [E|E]; auto. cbn [negb].
    destruct (expansion_correct F le c q point HQ) as [ex [EE [EL EX]]]. rewrite EE. cbn [obind].
    pose proof (wf_ge lw m HW) as G. rewrite <- E in *.
    assert (GE : (2 ^ length point <= length ex)%nat) by (rewrite EL, pow_sub_mul; apply pow2_le; lia).
    assert (S : forall ys k, (length ys = 2 ^ length point)%nat -> (forall i, (i < 2 ^ length point)%nat -> nth i ys 0 = table m i) ->
       forall xs, length xs = (2 ^ length point)%nat -> (forall i, (i < 2 ^ length point)%nat -> nth i xs 0 = eqw point i) ->
       of_opt (inner_product_par k xs ys) = Ok (mle (table m) point)).
    { intros ys k L1 N1 xs L2 N2. rewrite inner_product_par_spec by lia. cbn [of_opt]. f_equal.
      unfold mle. rewrite L2. apply sumn_ext. intros i Hi. rewrite N1, N2 by auto. ring. }
    destruct ((length point <? lw)%nat || (length point <? le)%nat)%bool eqn:C.
    - apply S.
      + rewrite firstn_length. lia.
      + intros. now rewrite nth_firstn_lt.
      + rewrite firstn_length. lia.
      + intros. now rewrite nth_firstn_lt, EX.
    - apply orb_false_iff in C. rewrite !Nat.ltb_ge in C.
      apply S; auto.
      + rewrite HW, pow_sub_mul. f_equal. lia.
      + rewrite EL, pow_sub_mul. f_equal. lia.
  Qed.

  (** C14 in the words of the property: whatever buffer and packing widths are used, evaluation at a
      hypercube vertex returns the stored value, and evaluation is affine in every coordinate. *)
  Corollary evaluate_at_vertex lw le c m q x :
    mle_wf lw m -> (x < 2 ^ me_mu m)%nat -> query_holds le c q (vertex (me_mu m) x) ->
    me_evaluate lw le m q = Ok (nth x (me_evals m) 0).
  Proof.
    intros HW Hx HQ. rewrite (evaluate_correct lw le c m q _ HW HQ), vertex_length, Nat.eqb_refl.
    now rewrite mle_on_cube.
  Qed.

  Corollary evaluate_affine lw le c m q q0 q1 a r b y :
    mle_wf lw m -> query_holds le c q (a ++ r :: b) ->
    query_holds le c q0 (a ++ 0 :: b) -> query_holds le c q1 (a ++ 1 :: b) ->
    me_evaluate lw le m q = Ok y ->
    exists y0 y1, me_evaluate lw le m q0 = Ok y0 /\ me_evaluate lw le m q1 = Ok y1 /\
      y = (1 - r) * y0 + r * y1.
  Proof.
    intros HW HQ HQ0 HQ1.
    rewrite (evaluate_correct lw le c m q _ HW HQ), (evaluate_correct lw le c m q0 _ HW HQ0),
      (evaluate_correct lw le c m q1 _ HW HQ1).
    rewrite !app_length. cbn [length]. destruct (_ =? _)%nat; [|discriminate].
    intros E. injection E as <-. do 2 eexists. repeat split. apply mle_affine.
  Qed.

  (* ---------------------------------------------------------------- *)
  (** C15 *)

  Lemma me_new_ok le n (o : list F) : length o = (2 ^ (n - le) * 2 ^ le)%nat ->
    me_new le n o = Ok (mkMle n o).
  Proof.
    intros H. pose proof (me_new_correct le n o _ H) as X. rewrite Nat.eqb_refl in X. tauto.
  Qed.

  (** [same] may only be set when the polynomial and the query have the same packed type. *)
  Theorem evaluate_partial_correct (same : bool) lw le c m q point start (uninit : list F) :
    mle_wf lw m -> query_holds le c q point -> (same = true -> lw = le) ->
    length uninit = (2 ^ (me_mu m - length point - le) * 2 ^ le)%nat ->
    if (start + length point <=? me_mu m)%nat then
      exists m', evaluate_partial same le m q start uninit = Ok m' /\
        mle_wf le m' /\ me_mu m' = (me_mu m - length point)%nat /\
        forall a b, length a = start -> (length a + length b)%nat = me_mu m' ->
          mle (table m') (a ++ b) = mle (table m) (a ++ point ++ b)
    else evaluate_partial same le m q start uninit = Err.
  Proof.
    intros HW HQ Hsame Hun. unfold evaluate_partial. rewrite (proj1 HQ).
    destruct (Nat.leb_spec (start + length point) (me_mu m)) as [L|L].
    2:{ now rewrite (proj2 (Nat.ltb_lt _ _) L). }
    rewrite (proj2 (Nat.ltb_ge _ _) L).
    destruct (expansion_correct F le c q point HQ) as [ex [EE [EL EX]]].
    pose proof (wf_ge lw m HW) as G.
    assert (GE : (2 ^ length point <= length ex)%nat) by (rewrite EL, pow_sub_mul; apply pow2_le; lia).
    set (n' := (me_mu m - length point)%nat) in *.
    destruct (Nat.eqb_spec start 0) as [->|NS].
    { (* low *)
      unfold evaluate_partial_low. rewrite (proj1 HQ), (proj2 (Nat.ltb_ge _ _)) by lia. rewrite EE. cbn [of_opt rbind]. fold n'.
      destruct (fold_right_spec F le (me_evals m) (me_mu m) ex (length point) (repeat 0 (2 ^ (n' - le) * 2 ^ le)))
        as [o [Eo [Lo [So _]]]]; try lia; [now rewrite repeat_length|].
      rewrite repeat_length in Lo. rewrite Eo. cbn [rbind]. fold n'. rewrite me_new_ok by auto.
      eexists. split; [reflexivity|]. split; [exact Lo|]. split; [reflexivity|].
      intros a b Ha Hb. destruct a; [|discriminate]. cbn [app me_mu length Nat.add] in *.
      rewrite mle_app_low. apply mle_ext. intros y Hy. unfold table at 1. cbn [me_evals].
      rewrite So by (fold n'; now rewrite <- Hb). unfold mle. apply sumn_ext. intros t Ht. rewrite EX by auto.
      unfold table. rewrite (Nat.mul_comm y), (Nat.add_comm t). ring. }
    destruct (Nat.eqb_spec (start + length point) (me_mu m)) as [EH|NH].
    { (* high *)
      unfold evaluate_partial_high. rewrite (proj1 HQ), EE. cbn [of_opt rbind]. fold n'.
      destruct (fold_left_spec F same le (me_evals m) (me_mu m) ex (length point) uninit
                  (if same then 2 ^ (me_mu m - lw) else length (me_evals m)))
        as [o [Eo [Lo So]]]; try lia; try assumption.
      { destruct same; [|lia]. rewrite HW. now rewrite Hsame. }
      rewrite Eo. cbn [rbind]. rewrite me_new_ok by congruence.
      eexists. split; [reflexivity|]. split; [red; cbn; congruence|]. split; [reflexivity|].
      intros a b Ha Hb. cbn [me_mu] in Hb. destruct b; [|cbn in Hb; lia]. rewrite !app_nil_r.
      rewrite mle_app_high. apply mle_ext. intros y Hy. unfold table at 1. cbn [me_evals].
      assert (En : n' = length a) by lia.
      rewrite So by (fold n'; rewrite En; lia). unfold mle. apply sumn_ext. intros t Ht. rewrite EX by auto.
      unfold table. fold n'. rewrite En, (Nat.mul_comm t), (Nat.add_comm y). ring. }
    rewrite (proj2 (Nat.ltb_ge (me_mu m) (length point))) by lia. rewrite EE. cbn [of_opt rbind].
    destruct (fold_middle_spec F le (me_evals m) (me_mu m) ex (length point) start (2 ^ (n' - le) * 2 ^ le))
      as [o [Eo [Lo So]]]; try lia; try reflexivity. fold n' in So |- *.
    rewrite Eo. cbn [rbind]. rewrite me_new_ok by auto.
    eexists. split; [reflexivity|]. split; [exact Lo|]. split; [reflexivity|].
    intros a b Ha Hb. cbn [me_mu] in Hb. rewrite mle_app_mid. apply mle_ext. intros z Hz.
    rewrite app_length, Hb in Hz. unfold table at 1. cbn [me_evals]. rewrite So by auto.
    unfold mle. apply sumn_ext. intros t Ht. rewrite EX by auto. unfold table. rewrite Ha. ring.
  Qed.

  (** [evaluate_partial_low] and [evaluate_partial_high] called directly. *)
  Theorem evaluate_partial_low_correct lw le c m q point :
    mle_wf lw m -> query_holds le c q point ->
    if (length point <=? me_mu m)%nat then
      exists m', evaluate_partial_low le m q = Ok m' /\
        mle_wf le m' /\ me_mu m' = (me_mu m - length point)%nat /\
        forall b, length b = me_mu m' -> mle (table m') b = mle (table m) (point ++ b)
    else evaluate_partial_low le m q = Err.
  Proof.
    intros HW HQ.
    pose proof (evaluate_partial_correct false lw le c m q point 0
      (repeat 0 (2 ^ (me_mu m - length point - le) * 2 ^ le)) HW HQ) as X.
    cbn [Nat.add] in X. unfold evaluate_partial in X. rewrite (proj1 HQ) in X. cbn [Nat.add Nat.eqb] in X.
    destruct (Nat.leb_spec (length point) (me_mu m)) as [L|L].
    - destruct X as [m' [E [W [M S]]]]; [discriminate|apply repeat_length|].
      rewrite (proj2 (Nat.ltb_ge _ _) L) in E. exists m'. split; auto. split; auto. split; auto.
      intros b Hb. apply (S [] b); auto.
    - unfold evaluate_partial_low. rewrite (proj1 HQ). now rewrite (proj2 (Nat.ltb_lt _ _) L).
  Qed.

  Theorem evaluate_partial_high_correct (same : bool) lw le c m q point (uninit : list F) :
    mle_wf lw m -> query_holds le c q point -> (same = true -> lw = le) ->
    length uninit = (2 ^ (me_mu m - length point - le) * 2 ^ le)%nat ->
    if (length point <=? me_mu m)%nat then
      exists m', evaluate_partial_high same le m q uninit = Ok m' /\
        mle_wf le m' /\ me_mu m' = (me_mu m - length point)%nat /\
        forall a, length a = me_mu m' -> mle (table m') a = mle (table m) (a ++ point)
    else evaluate_partial_high same le m q uninit = Err.
  Proof.
    intros HW HQ Hsame Hun.
    destruct (expansion_correct F le c q point HQ) as [ex [EE [EL EX]]].
    unfold evaluate_partial_high. rewrite (proj1 HQ), EE. cbn [of_opt rbind].
    destruct (Nat.leb_spec (length point) (me_mu m)) as [L|L].
    - pose proof (wf_ge lw m HW) as G.
      assert (GE : (2 ^ length point <= length ex)%nat) by (rewrite EL, pow_sub_mul; apply pow2_le; lia).
      destruct (fold_left_spec F same le (me_evals m) (me_mu m) ex (length point) uninit
                  (if same then 2 ^ (me_mu m - lw) else length (me_evals m)))
        as [o [Eo [Lo So]]]; try lia; try assumption.
      { destruct same; [|lia]. rewrite HW. now rewrite Hsame. }
      rewrite Eo. cbn [rbind]. rewrite me_new_ok by congruence.
      eexists. split; [reflexivity|]. split; [red; cbn; congruence|]. split; [reflexivity|].
      intros a Ha. cbn [me_mu] in Ha.
      rewrite mle_app_high. apply mle_ext. intros y Hy. unfold table at 1. cbn [me_evals].
      rewrite So by (now rewrite <- Ha). unfold mle. apply sumn_ext. intros t Ht. rewrite EX by auto.
      unfold table. rewrite Ha, (Nat.mul_comm t), (Nat.add_comm y). ring.
    - unfold rs_fold_left, check_fold_arguments. rewrite (proj2 (Nat.ltb_lt _ _) L). reflexivity.
  Qed.

  (* ---------------------------------------------------------------- *)
  (** C16 *)

  (** Right fold (lowest variable): for every table of [size] values completed by [suffix] to an even
      length, the fold substitutes the challenge for the lowest variable; the rest of [out] is kept. *)
  Theorem fold_right_lerp_correct le evals size lerp suffix (out : list F) k :
    length out = (k * 2 ^ le)%nat ->
    if ((size <=? length evals) && (size <=? length out * 2))%nat%bool then
      exists o, fold_right_lerp le evals size lerp suffix out = Ok o /\ length o = length out /\
        (forall i, (i < length out)%nat ->
           nth i o 0 = if (2 * i <? size)%nat
                       then (1 - lerp) * padded evals size suffix (2 * i)
                            + lerp * padded evals size suffix (2 * i + 1)
                       else nth i out 0)
    else fold_right_lerp le evals size lerp suffix out = Err.
  Proof.
    intros Hk. destruct (Nat.leb_spec size (length evals)) as [L1|L1]; cbn [andb].
    - destruct (Nat.leb_spec size (length out * 2)) as [L2|L2].
      + exact (fold_right_lerp_spec F le evals size lerp suffix out k Hk L1 L2).
      + unfold fold_right_lerp, check_right_lerp.
        rewrite (proj2 (Nat.ltb_ge _ _) L1), (proj2 (Nat.ltb_lt _ _) L2). reflexivity.
    - unfold fold_right_lerp, check_right_lerp. rewrite (proj2 (Nat.ltb_lt _ _) L1). reflexivity.
  Qed.

  (** Left fold (highest variable), out of place. *)
  Theorem fold_left_lerp_correct lw evals prefix suffix n lerp (out : list F) ke ko :
    length evals = (ke * 2 ^ lw)%nat -> length out = (ko * 2 ^ lw)%nat ->
    (0 < n)%nat -> (prefix <= 2 ^ n)%nat -> (prefix <= length evals)%nat ->
    (Nat.min prefix (2 ^ (n - 1)) <= length out)%nat ->
    padding_ok evals prefix suffix n ->
    exists o, fold_left_lerp lw evals prefix suffix n lerp out = Ok o /\ length o = length out /\
      (forall i, (i < 2 ^ (n - 1))%nat -> (i < length out)%nat ->
         (i < prefix)%nat \/ (suffix = 0 /\ ((0 < prefix)%nat \/ (lw < n)%nat)) ->
         nth i o 0 = (1 - lerp) * padded evals prefix suffix i
                     + lerp * padded evals prefix suffix (i + 2 ^ (n - 1))).
  Proof. apply fold_left_lerp_spec. Qed.

  (** A vector of packed elements stands for the table [v] of [2^n] values: the first [prefix] are
      stored, all others equal [suffix]. *)
  Definition represents (lw : nat) (evals : list F) (prefix : nat) (suffix : F) (n : nat) (v : nat -> F) : Prop :=
    (exists k, length evals = (k * 2 ^ lw)%nat) /\
    (prefix <= length evals)%nat /\ (prefix <= 2 ^ n)%nat /\
    padding_ok evals prefix suffix n /\
    forall x, (x < 2 ^ n)%nat -> v x = padded evals prefix suffix x.

  (** Left fold in place: the result stands for the table with the highest variable substituted. *)
  Theorem fold_left_lerp_inplace_correct lw evals prefix suffix n lerp v :
    represents lw evals prefix suffix (S n) v ->
    exists o, fold_left_lerp_inplace lw evals prefix suffix (S n) lerp = Ok o /\
      represents lw o (Nat.min prefix (2 ^ n)) suffix n
        (fun x => (1 - lerp) * v x + lerp * v (x + 2 ^ n)%nat).
  Proof.
    intros [[k Hk] [H1 [H2 [H3 H4]]]].
    destruct (fold_left_lerp_inplace_spec F lw evals prefix suffix (S n) lerp k) as [o [ko [E [L [P1 [P2 P3]]]]]];
      auto; try lia.
    cbn [Nat.sub] in P1, P2, P3. rewrite Nat.sub_0_r in *.
    exists o. split; auto. split; [eauto|]. split; auto. split; [lia|]. split; auto.
    intros x Hx. rewrite P3 by auto. rewrite !H4 by (cbn [Nat.pow]; lia). reflexivity.
  Qed.

  (** Folding all the variables, highest first, evaluates the multilinear extension. *)
  Fixpoint fold_all (lw n : nat) (evals : list F) (prefix : nat) (suffix : F) (challenges : list F)
    : res (list F * nat) :=
    match n, challenges with
    | S n', r :: rs =>
      try o <- fold_left_lerp_inplace lw evals prefix suffix n r;
      fold_all lw n' o (Nat.min prefix (2 ^ n')) suffix rs
    | _, _ => Ok (evals, prefix)
    end.

  Theorem fold_all_correct lw challenges : forall evals prefix suffix v,
    represents lw evals prefix suffix (length challenges) v ->
    exists o p, fold_all lw (length challenges) evals prefix suffix challenges = Ok (o, p) /\
      padded o p suffix 0 = mle v (rev challenges).
  Proof.
    induction challenges as [|r rs IH]; intros evals prefix suffix v HR.
    - exists evals, prefix. split; auto. cbn [rev]. rewrite mle_nil.
      destruct HR as [_ [_ [_ [_ H]]]]. symmetry. apply H. cbn. lia.
    - cbn [length] in HR. destruct (fold_left_lerp_inplace_correct lw evals prefix suffix _ r v HR) as [o [E HR2]].
      destruct (IH _ _ _ _ HR2) as [o2 [p2 [E2 V]]].
      exists o2, p2. cbn [length fold_all]. rewrite E. cbn [rbind]. split; auto.
      rewrite V. cbn [rev]. rewrite mle_app_high. apply mle_ext. intros x Hx.
      rewrite mle_cons, mle_nil, rev_length. rewrite Nat.mul_0_r, Nat.add_0_r.
      replace (x + 2 ^ length rs * (2 * 0 + 1))%nat with (x + 2 ^ length rs)%nat by lia. reflexivity.
  Qed.

  (* ---------------------------------------------------------------- *)
  (** Zero padding *)

  (** For packed elements not wider than the original table, [zero_pad] inserts [n_pad] variables at
      [start] and places the table at position [nonzero]. *)
  Theorem zero_pad_correct lw le m n_pad start nonzero :
    mle_wf lw m -> (le <= me_mu m)%nat -> (start <= me_mu m)%nat -> (nonzero < 2 ^ n_pad)%nat ->
    exists m', me_zero_pad le m n_pad start nonzero = Ok m' /\ mle_wf le m' /\
      me_mu m' = (me_mu m + n_pad)%nat /\
      (forall l p h, (l < 2 ^ start)%nat -> (p < 2 ^ n_pad)%nat -> (h < 2 ^ (me_mu m - start))%nat ->
         table m' (l + 2 ^ start * (p + 2 ^ n_pad * h)) =
         if (p =? nonzero)%nat then table m (l + 2 ^ start * h) else 0) /\
      (forall a z c, length a = start -> length z = n_pad -> (length a + length c)%nat = me_mu m ->
         mle (table m') (a ++ z ++ c) = mle (table m) (a ++ c) * eqw z nonzero).
  Proof.
    intros HW Hle Hs Hn. unfold me_zero_pad. rewrite (proj2 (Nat.ltb_ge _ _) Hs), (proj2 (Nat.leb_gt _ _) Hn).
    pose proof (wf_ge lw m HW) as G.
    set (n := me_mu m) in *. set (n' := (n + n_pad)%nat).
    set (L := (2 ^ (n' - le) * 2 ^ le)%nat).
    assert (EL : L = (2 ^ n')%nat) by (unfold L; rewrite pow_sub_mul; f_equal; lia).
    unfold zero_pad. rewrite (proj2 (Nat.ltb_ge _ _) Hs). rewrite (proj2 (Nat.ltb_ge n' n)) by lia.
    replace (n' - n)%nat with n_pad by lia. rewrite (proj2 (Nat.ltb_ge (2 ^ n_pad) nonzero)) by lia.
    pose proof (pow2_gt0 start) as S0. pose proof (pow2_gt0 n_pad) as P0.
    set (S := (2 ^ start)%nat) in *. set (P := (2 ^ n_pad)%nat) in *.
    assert (SP : (2 ^ (start + n_pad) = S * P)%nat) by apply Nat.pow_add_r. rewrite SP.
    assert (NN : (2 ^ n = 2 ^ (n - start) * S)%nat) by (unfold S; rewrite <- Nat.pow_add_r; f_equal; lia).
    assert (NN' : (2 ^ n' = 2 ^ (n - start) * (S * P))%nat) by (rewrite <- SP; rewrite <- Nat.pow_add_r; f_equal; lia).
    rewrite repeat_length.
    (* the scalar at index l + S * (p + P * h) *)
    assert (IDX : forall l p h, (l < S)%nat -> (p < P)%nat ->
       ((l + S * (p + P * h)) mod (S * P) = l + S * p /\ (l + S * (p + P * h)) / (S * P) = h)%nat).
    { intros l p h Hl Hp. assert (l + S * p < S * P)%nat.
      { assert (S * (p + 1) <= S * P)%nat by (apply Nat.mul_le_mono_l; lia). lia. }
      replace (l + S * (p + P * h))%nat with (l + S * p + h * (S * P))%nat by lia.
      rewrite Nat.mod_add, Nat.div_add by lia. rewrite Nat.mod_small, Nat.div_small by lia. lia. }
    set (g := fun i => if ((nonzero * S <=? i mod (S * P)) && (i mod (S * P) <? nonzero * S + S))%nat%bool
                       then nth (i / (S * P) * S + i mod (S * P) - nonzero * S) (me_evals m) 0 else 0).
    match goal with |- context [omap ?f ?l] => assert (OM : omap f l = Some (map g (seq 0 L))) end.
    { apply omap_fn. intros i Hi. cbv zeta. rewrite div_mod_shl. fold L.
      pose proof (pow2_le le n Hle).
      pose proof (Nat.mod_upper_bound i (2 ^ le) ltac:(apply Nat.pow_nonzero; lia)).
      rewrite (proj2 (Nat.ltb_lt (i mod 2 ^ le) _)) by lia. unfold g.
      destruct ((nonzero * S <=? i mod (S * P)) && (i mod (S * P) <? nonzero * S + S))%nat%bool eqn:C.
      - apply andb_true_iff in C. rewrite Nat.leb_le, Nat.ltb_lt in C. apply nth_error_nth_eq.
        assert (HR : (i / (S * P) < 2 ^ (n - start))%nat).
        { apply Nat.div_lt_upper_bound; [nia|]. rewrite <- (Nat.mul_comm (2 ^ (n - start))). lia. }
        assert ((i / (S * P) + 1) * S <= 2 ^ (n - start) * S)%nat by (apply Nat.mul_le_mono_r; lia). lia.
      - rewrite (nth_error_nth_eq _ i 0) by (rewrite repeat_length; lia). f_equal. now apply nth_repeat0. }
    rewrite OM. cbn [of_opt rbind].
    rewrite me_new_ok by (now rewrite map_length, seq_length).
    eexists. split; [reflexivity|]. split; [red; cbn [me_evals me_mu]; now rewrite map_length, seq_length|].
    split; [reflexivity|].
    assert (T : forall l p h, (l < S)%nat -> (p < P)%nat -> (h < 2 ^ (n - start))%nat ->
         table (mkMle n' (map g (seq 0 L))) (l + S * (p + P * h)) =
         if (p =? nonzero)%nat then table m (l + S * h) else 0).
    { intros l p h Hl Hp Hh. unfold table. cbn [me_evals].
      assert (B : (l + S * (p + P * h) < L)%nat).
      { rewrite EL, NN'. assert (S * (p + 1) <= S * P)%nat by (apply Nat.mul_le_mono_l; lia).
        assert ((h + 1) * (S * P) <= 2 ^ (n - start) * (S * P))%nat by (apply Nat.mul_le_mono_r; lia). lia. }
      rewrite nth_map_seq by auto. unfold g. destruct (IDX l p h Hl Hp) as [-> ->].
      destruct (Nat.eqb_spec p nonzero) as [->|NE].
      - rewrite (proj2 (Nat.leb_le _ _)), (proj2 (Nat.ltb_lt _ _)) by lia. cbn [andb]. f_equal. lia.
      - destruct (Nat.lt_ge_cases p nonzero).
        + rewrite (proj2 (Nat.leb_gt _ _)); [reflexivity|].
          assert (S * (p + 1) <= S * nonzero)%nat by (apply Nat.mul_le_mono_l; lia). lia.
        + rewrite (proj2 (Nat.ltb_ge _ _)); [now rewrite andb_false_r|].
          assert (S * (nonzero + 1) <= S * p)%nat by (apply Nat.mul_le_mono_l; lia). lia. }
    split; [exact T|].
    intros a z c Ha Hz Hc.
    rewrite mle_app_high. rewrite (mle_app_high _ _ a c).
    rewrite <- (Radd_0_l (f_ring F) (_ * _)), <- (Radd_comm (f_ring F)).
    replace (mle (fun x => mle (fun y => table m (x + 2 ^ length a * y)%nat) c) a * eqw z nonzero + 0)
      with (eqw z nonzero * mle (fun x => mle (fun y => table m (x + 2 ^ length a * y)%nat) c) a
            + 0 * mle (fun _ => 0) a) by ring.
    rewrite <- mle_lin. apply mle_ext. intros x Hx.
    rewrite mle_app_low. rewrite Ha in *. fold S in Hx |- *.
    replace (eqw z nonzero * mle (fun y => table m (x + S * y)%nat) c + 0 * 0)
      with (eqw z nonzero * mle (fun y => table m (x + S * y)%nat) c + 0 * mle (fun _ => 0) c) by ring.
    rewrite <- mle_lin. apply mle_ext. intros y Hy. unfold mle. rewrite Hz. fold P.
    assert (Hc' : length c = (n - start)%nat) by lia. rewrite Hc' in Hy.
    rewrite (sumn_single F P nonzero) by (auto; intros i Hi NE; rewrite T by auto;
      rewrite (proj2 (Nat.eqb_neq _ _) NE); ring).
    rewrite T by auto. rewrite Nat.eqb_refl. ring.
  Qed.
End Props.

Arguments mle_wf {_} _ _.
Arguments table {_} _ _.
Arguments represents {_} _ _ _ _ _ _.

(* ------------------------------------------------------------------ *)
(** Examples: the hypotheses are met by concrete, non-trivial values. *)

Example query_ex : exists q, query_expand 1 (els [2; 7; 9]%N) = Ok q /\ query_holds 1 2 q (els [2; 7; 9]%N).
Proof. apply (query_expand_correct X16 1 (els [2; 7; 9]%N)). Qed.

Definition m_ex : mlext X16 := mkMle 3 (els [1; 2; 3; 4; 5; 6; 7; 9]%N).

Example mle_wf_ex : mle_wf 2 m_ex.
Proof. reflexivity. Qed.

Example evaluate_ex :
  shown (try q <- query_expand 1 (els [2; 7; 9]%N); try y <- me_evaluate 2 1 m_ex q; Ok [y]) = Ok [13]%N.
Proof. vm_compute. reflexivity. Qed.

Example evaluate_partial_ex :
  shown (try q <- query_expand 1 (els [7]%N);
         try m' <- evaluate_partial false 1 m_ex q 1 (els [0; 0; 0; 0]%N); Ok (me_evals m')) = Ok [8; 14; 12; 7]%N.
Proof. vm_compute. reflexivity. Qed.

Example represents_ex : represents 1 (els [3; 8; 5; 4]%N) 3 (el 4) 3
  (fun x => nth x (els [3; 8; 5; 4; 4; 4; 4; 4]%N) (el 0)).
Proof.
  split; [exists 2; reflexivity|]. split; [cbn; lia|]. split; [cbn; lia|]. split.
  - intros x Hx _. cbn in Hx. replace x with 3 by lia. reflexivity.
  - intros x Hx. cbn in Hx. do 8 (destruct x as [|x]; [reflexivity|]). lia.
Qed.

Example zero_pad_ex :
  shown (try m' <- me_zero_pad 1 (mkMle 1 (els [3; 8]%N)) 1 0 1; Ok (me_evals m')) = Ok [0; 3; 0; 8]%N.
Proof. vm_compute. reflexivity. Qed.

(* ------------------------------------------------------------------ *)
(** Behaviours of the code that contradict the natural reading of its documentation. *)

(** [fold_left_lerp] writes zero, not [suffix], past the non-constant prefix. *)
Theorem fold_left_lerp_suffix_refuted :
  exists evals suffix out o i, padding_ok (F:=X16) evals 1 suffix 2 /\
    fold_left_lerp 0 evals 1 suffix 2 (el 3) out = Ok o /\ (i < 2)%nat /\ (i < length out)%nat /\
    nth i o f0 <> fadd (fmul (fsub f1 (el 3)) (padded evals 1 suffix i)) (fmul (el 3) (padded evals 1 suffix (i + 2))).
Proof.
  exists (els [5]%N), (el 6), (els [0; 0]%N), (els [7; 0]%N), 1. split.
  - intros x Hx _. cbn in Hx. lia.
  - split; [vm_compute; reflexivity|]. split; [lia|]. split; [cbn; lia|]. vm_compute. discriminate.
Qed.

(** When the whole table is constant and fits in one packed element, [fold_left_lerp] leaves the
    (uninitialised) output untouched although it reports success. *)
Theorem fold_left_lerp_uninit_refuted :
  exists evals (out : list X16), forall suffix, fold_left_lerp 1 evals 0 suffix 1 (el 3) out = Ok out /\ length out = 2.
Proof. exists [], (els [9; 9]%N). intros suffix. split; reflexivity. Qed.

(** [zero_pad] loses values when the packed element is wider than the original table. *)
Theorem zero_pad_wide_refuted :
  exists m m', mle_wf 0 m /\ me_zero_pad (F:=X16) 2 m 1 0 0 = Ok m' /\
    table m 1 = el 7 /\ table m' 2 <> el 7.
Proof.
  exists (mkMle 1 (els [3; 7]%N)), (mkMle 2 (els [3; 0; 0; 0]%N)).
  split; [reflexivity|]. split; [reflexivity|]. split; [reflexivity|]. discriminate.
Qed.

(** The free function [zero_pad] accepts the out-of-range position [2^extra] and then drops the table. *)
Theorem zero_pad_range_refuted :
  exists evals out, zero_pad (F:=X16) 0 evals 1 2 0 2 out = Ok out /\ evals = els [3; 7]%N /\ out = els [0; 0; 0; 0]%N.
Proof. exists (els [3; 7]%N), (els [0; 0; 0; 0]%N). split; [reflexivity|auto]. Qed.
