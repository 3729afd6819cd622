(** Facts about the loops of Math/MleModel.v: inner products and the generic folds. *)
Require Import Coq.setoid_ring.Ring Coq.Arith.Arith Coq.Lists.List Coq.Bool.Bool Lia.
From Verif Require Import Base.Fld Base.Lists Base.Sums Math.MleSpec Math.MleModel Math.TensorProps.
Import ListNotations.

Lemma div_mod_lor i le : Nat.lor (Nat.shiftl (i / 2 ^ le) le) (i mod 2 ^ le) = i.
Proof.
  rewrite lor_shl by (apply Nat.mod_upper_bound, Nat.pow_nonzero; lia).
  pose proof (Nat.div_mod i (2 ^ le) ltac:(apply Nat.pow_nonzero; lia)). lia.
Qed.

Lemma div_mod_shl i le : (Nat.shiftl (i / 2 ^ le) le + i mod 2 ^ le = i)%nat.
Proof.
  rewrite Nat.shiftl_mul_pow2.
  pose proof (Nat.div_mod i (2 ^ le) ltac:(apply Nat.pow_nonzero; lia)). lia.
Qed.

(** Position [i] of an output of [2^(m-le)] packed elements: below [2^m] it is computed, above (only
    when [m < le]) it is padding. *)
Lemma inner_lt i m le : (i < 2 ^ (m - le) * 2 ^ le)%nat ->
  (i mod 2 ^ le <? Nat.min (2 ^ le) (2 ^ m)) = (i <? 2 ^ m).
Proof.
  intros H. pose proof (Nat.mod_upper_bound i (2 ^ le) ltac:(apply Nat.pow_nonzero; lia)) as B.
  destruct (Nat.le_gt_cases le m) as [L|L].
  - rewrite pow_sub_mul, Nat.max_l in H by lia. rewrite (proj2 (Nat.ltb_lt i _)) by lia.
    pose proof (pow2_le le m L). apply Nat.ltb_lt. lia.
  - rewrite pow_sub_mul, Nat.max_r in H by lia. rewrite Nat.mod_small by lia.
    pose proof (pow2_le m le ltac:(lia)). now rewrite Nat.min_r by lia.
Qed.

Lemma div_ceil_le a b : (0 < b -> a <= div_ceil a b * b)%nat.
Proof.
  intros H. unfold div_ceil. pose proof (Nat.div_mod (a + b - 1) b ltac:(lia)).
  pose proof (Nat.mod_upper_bound (a + b - 1) b ltac:(lia)). nia.
Qed.

Lemma div_ceil_lt a b i : (0 < b -> i < div_ceil a b -> i * b < a)%nat.
Proof.
  intros H Hi. unfold div_ceil in Hi.
  assert ((i + 1) <= (a + b - 1) / b)%nat by lia.
  pose proof (Nat.mul_div_le (a + b - 1) b ltac:(lia)). nia.
Qed.

Lemma div_ceil_mul a b : (0 < b -> div_ceil (a * b) b = a)%nat.
Proof.
  intros H. unfold div_ceil. replace (a * b + b - 1)%nat with (b - 1 + a * b)%nat by lia.
  rewrite Nat.div_add by lia. rewrite Nat.div_small; lia.
Qed.

Lemma omap_fn {A} (f : nat -> option A) (g : nat -> A) n :
  (forall i, (i < n)%nat -> f i = Some (g i)) -> omap f (seq 0 n) = Some (map g (seq 0 n)).
Proof.
  intros H. apply omap_spec. split; [now rewrite !map_length|].
  intros i a Hi. rewrite nth_error_seq in Hi. destruct (Nat.ltb_spec i n); [|discriminate].
  injection Hi as <-. cbn [Nat.add]. rewrite H by auto.
  apply map_nth_error. rewrite nth_error_seq. destruct (Nat.ltb_spec i n); [reflexivity|lia].
Qed.

Section Proofs.
  Variable F : field.
  Local Open Scope fld_scope.
  Add Ring Fring : (f_ring F).

  Lemma osum_ok n (f : nat -> option F) g :
    (forall t, (t < n)%nat -> f t = Some (g t)) -> osum n f = Some (sumn n g).
  Proof.
    intros H. unfold osum. induction n; [reflexivity|].
    rewrite seq_S, ofold_app, IHn by auto. cbn [obind ofold Nat.add].
    rewrite H by auto. cbn [obind]. now rewrite sumn_S.
  Qed.

  Lemma inner_product_unchecked_spec (a b : list F) :
    inner_product_unchecked a b =
    sumn (Nat.min (length a) (length b)) (fun i => nth i a 0 * nth i b 0).
  Proof.
    unfold inner_product_unchecked. rewrite fsum_nth, map_length, combine_length.
    apply sumn_ext. intros i Hi.
    rewrite nth_map_lt with (d' := (0, 0)) by (rewrite combine_length; lia).
    assert (X : nth i (combine a b) (0, 0) = (nth i a 0, nth i b 0)).
    { revert b i Hi. induction a as [|x a IH]; intros b i Hi; [cbn in Hi; lia|].
      destruct b as [|y b]; [cbn in Hi; lia|]. destruct i; cbn; auto. apply IH. cbn in Hi. lia. }
    now rewrite X.
  Qed.

  Lemma product_by_ys_spec (xs ys : list F) off :
    (off + length ys <= length xs)%nat ->
    product_by_ys xs off ys = Some (sumn (length ys) (fun i => nth (off + i) xs 0 * nth i ys 0)).
  Proof.
    intros H. apply osum_ok. intros t Ht.
    rewrite (nth_error_nth_eq xs (off + t) 0), (nth_error_nth_eq ys t 0) by lia. reflexivity.
  Qed.

  Lemma sumn_chunks L c (f : nat -> F) : (0 < c)%nat ->
    sumn L f = sumn (div_ceil L c) (fun i => sumn (Nat.min c (L - i * c)) (fun j => f (i * c + j)%nat)).
  Proof.
    intros Hc.
    rewrite <- (sumn_ext F L (fun x => if (x <? L)%nat then f x else 0) f).
    2:{ intros i Hi. destruct (Nat.ltb_spec i L); [auto|lia]. }
    rewrite <- (sumn_trunc F L (div_ceil L c * c)).
    - rewrite sumn_mul. apply sumn_ext. intros i Hi.
      rewrite (sumn_trunc F (Nat.min c (L - i * c)) c).
      + apply sumn_ext. intros j Hj. destruct (Nat.ltb_spec (i * c + j) L); [auto|lia].
      + lia.
      + intros j Hj. destruct (Nat.ltb_spec (i * c + j) L); [lia|auto].
    - now apply div_ceil_le.
    - intros i Hi. destruct (Nat.ltb_spec i L); [lia|auto].
  Qed.

  Lemma inner_product_par_spec ly (xs ys : list F) :
    (length xs <= length ys)%nat ->
    inner_product_par ly xs ys = Some (sumn (length xs) (fun i => nth i xs 0 * nth i ys 0)).
  Proof.
    intros HL. unfold inner_product_par. rewrite (proj2 (Nat.leb_le _ _) HL). cbn [negb].
    destruct (Nat.ltb_spec (length xs) (length ys)) as [L|L].
    - rewrite inner_product_unchecked_spec, Nat.min_l by lia. reflexivity.
    - assert (EL : length xs = length ys) by lia.
      destruct (length ys / 2 ^ ly <? 16 * 64)%nat.
      + rewrite product_by_ys_spec by lia. now rewrite EL.
      + remember (64 * 2 ^ ly)%nat as c eqn:Ec.
        assert (Hc : (0 < c)%nat) by (pose proof (pow2_gt0 ly); lia). clear Ec.
        rewrite EL, (sumn_chunks _ c) by auto. apply osum_ok. intros i Hi.
        pose proof (div_ceil_lt _ _ i Hc Hi) as B.
        assert (LF : length (firstn c (skipn (i * c) ys)) = Nat.min c (length ys - i * c))
          by (rewrite firstn_length, skipn_length; lia).
        rewrite product_by_ys_spec by (rewrite LF; lia). rewrite LF. f_equal. apply sumn_ext. intros j Hj.
        rewrite nth_firstn_lt, nth_skipn' by lia. reflexivity.
  Qed.

  (* ---------------------------------------------------------------- *)
  (** The folds, on arbitrary queries. *)

  Lemma check_fold_ok n q el ql ol :
    check_fold_arguments n q el ql ol = true <->
    (q <= n /\ 2 ^ n <= el /\ 2 ^ q <= ql /\ 2 ^ (n - q) <= ol)%nat.
  Proof.
    unfold check_fold_arguments. rewrite !andb_true_iff, !negb_true_iff, !Nat.ltb_ge. tauto.
  Qed.

  Lemma fold_index_bound i n q t :
    (q <= n -> i < 2 ^ (n - q) -> t < 2 ^ q -> i * 2 ^ q + t < 2 ^ n)%nat.
  Proof.
    intros Hq Hi Ht. replace (2 ^ n)%nat with (2 ^ (n - q) * 2 ^ q)%nat
      by (rewrite <- Nat.pow_add_r; f_equal; lia).
    apply (Nat.lt_le_trans _ ((i + 1) * 2 ^ q)); [lia|]. apply Nat.mul_le_mono_r. lia.
  Qed.

  Lemma fold_right_fallback_spec le evals n query q (out : list F) :
    (q <= n)%nat -> (2 ^ n <= length evals)%nat -> (2 ^ q <= length query)%nat ->
    length out = (2 ^ (n - q - le) * 2 ^ le)%nat ->
    fold_right_fallback le evals n query q out =
    Some (map (fun i => if (i <? 2 ^ (n - q))%nat
                        then sumn (2 ^ q) (fun t => nth t query 0 * nth (i * 2 ^ q + t) evals 0)
                        else nth i out 0) (seq 0 (length out))).
  Proof.
    intros Hq He Hqu Ho. unfold fold_right_fallback. apply omap_fn. intros i Hi.
    rewrite inner_lt by lia. destruct (Nat.ltb_spec i (2 ^ (n - q))) as [L|L].
    - rewrite div_mod_lor, firstn_length, Nat.min_l by lia. apply osum_ok. intros t Ht.
      pose proof (fold_index_bound i n q t Hq L Ht).
      rewrite Nat.shiftl_mul_pow2, (Nat.add_comm t).
      rewrite (nth_error_nth_eq query t 0), (nth_error_nth_eq evals _ 0) by lia. reflexivity.
    - apply nth_error_nth_eq. lia.
  Qed.

  Lemma sumn_2 (f : nat -> F) : sumn (2 ^ 1) f = f 0%nat + f 1%nat.
  Proof. cbn [Nat.pow Nat.mul Nat.add]. rewrite !sumn_S, sumn_0. ring. Qed.

  (** [fold_right_lerp] on a vector of [size] values (odd sizes are completed by [suffix]). *)
  Lemma fold_right_lerp_spec le evals size lerp suffix (out : list F) k :
    length out = (k * 2 ^ le)%nat -> (size <= length evals)%nat -> (size <= length out * 2)%nat ->
    exists o, fold_right_lerp le evals size lerp suffix out = Ok o /\ length o = length out /\
      (forall i, (i < length out)%nat ->
         let v x := if (x <? size)%nat then nth x evals 0 else suffix in
         nth i o 0 = if (2 * i <? size)%nat then (1 - lerp) * v (2 * i)%nat + lerp * v (2 * i + 1)%nat
                     else nth i out 0).
  Proof.
    intros Hk He Ho. unfold fold_right_lerp, check_right_lerp.
    rewrite (proj2 (Nat.ltb_ge _ _) He), (proj2 (Nat.ltb_ge _ _) Ho). cbn [negb andb].
    set (half := Nat.div2 size).
    assert (Hs : size = (2 * half + size mod 2)%nat /\ (size mod 2 < 2)%nat).
    { split; [|apply Nat.mod_upper_bound; lia]. unfold half. rewrite Nat.div2_div. apply Nat.div_mod. lia. }
    destruct Hs as [Hs Hs2].
    pose proof (pow2_gt0 le) as W0.
    set (upto := div_ceil half (2 ^ le)).
    assert (Hup : (upto * 2 ^ le <= length out)%nat).
    { rewrite Hk. apply Nat.mul_le_mono_r. unfold upto. destruct (Nat.le_gt_cases (div_ceil half (2 ^ le)) k); auto.
      pose proof (div_ceil_lt half (2 ^ le) k W0 ltac:(lia)). lia. }
    rewrite (proj2 (Nat.ltb_ge _ _) Hup).
    set (g := fun i => if (i <? half)%nat then (nth (2 * i + 1) evals 0 - nth (2 * i) evals 0) * lerp + nth (2 * i) evals 0
                       else nth i out 0).
    rewrite (omap_fn _ g).
    2:{ intros i Hi.
        assert (C : ((i / 2 ^ le <? upto) && (i mod 2 ^ le <? Nat.min (2 ^ le) (half - Nat.shiftl (i / 2 ^ le) le)))%bool
                    = (i <? half)%nat).
        { rewrite Nat.shiftl_mul_pow2. pose proof (Nat.div_mod i (2 ^ le) ltac:(lia)) as D.
          pose proof (Nat.mod_upper_bound i (2 ^ le) ltac:(lia)) as M.
          pose proof (div_ceil_le half (2 ^ le) W0) as DC. fold upto in DC.
          destruct (Nat.ltb_spec i half) as [L|L].
          - apply andb_true_iff. rewrite !Nat.ltb_lt. split; nia.
          - apply andb_false_iff. rewrite !Nat.ltb_ge. right. nia. }
        rewrite C. unfold g. destruct (Nat.ltb_spec i half) as [L|L].
        - rewrite div_mod_lor. rewrite lor_shl by (cbn; lia). rewrite Nat.shiftl_mul_pow2.
          change (2 ^ 1)%nat with 2%nat. rewrite (Nat.mul_comm i 2).
          rewrite (nth_error_nth_eq evals (2 * i) 0), (nth_error_nth_eq evals (2 * i + 1) 0) by lia. reflexivity.
        - now apply nth_error_nth_eq. }
    cbn [obind]. destruct (Nat.eqb_spec (size mod 2) 1) as [E|E].
    - rewrite Nat.shiftl_mul_pow2. change (2 ^ 1)%nat with 2%nat. rewrite (Nat.mul_comm half 2).
      rewrite (nth_error_nth_eq evals (2 * half) 0) by lia. cbn [obind].
      rewrite map_length, seq_length. rewrite (proj2 (Nat.ltb_lt half (length out))) by lia.
      eexists. split; [reflexivity|]. rewrite upd_length, map_length, seq_length. split; auto.
      intros i Hi. cbv zeta. rewrite upd_nth, map_length, seq_length, nth_map_seq by auto.
      rewrite (proj2 (Nat.ltb_lt half (length out))) by lia. rewrite andb_true_r.
      unfold g. destruct (Nat.eqb_spec i half) as [->|NE].
      + rewrite (proj2 (Nat.ltb_lt (2 * half) size)) by lia.
        rewrite (proj2 (Nat.ltb_ge (2 * half + 1) size)) by lia. ring.
      + destruct (Nat.ltb_spec i half).
        * rewrite (proj2 (Nat.ltb_lt (2 * i) size)), (proj2 (Nat.ltb_lt (2 * i + 1) size)) by lia. ring.
        * rewrite (proj2 (Nat.ltb_ge (2 * i) size)) by lia. reflexivity.
    - eexists. split; [reflexivity|]. rewrite map_length, seq_length. split; auto.
      intros i Hi. cbv zeta. rewrite nth_map_seq by auto. unfold g.
      destruct (Nat.ltb_spec i half).
      + rewrite (proj2 (Nat.ltb_lt (2 * i) size)), (proj2 (Nat.ltb_lt (2 * i + 1) size)) by lia. ring.
      + rewrite (proj2 (Nat.ltb_ge (2 * i) size)) by lia. reflexivity.
  Qed.

  Theorem fold_right_spec le evals n query q (out : list F) :
    (q <= n)%nat -> (2 ^ n <= length evals)%nat -> (2 ^ q <= length query)%nat ->
    length out = (2 ^ (n - q - le) * 2 ^ le)%nat ->
    exists o, rs_fold_right le evals n query q out = Ok o /\ length o = length out /\
      (forall i, (i < 2 ^ (n - q))%nat ->
         nth i o 0 = sumn (2 ^ q) (fun t => nth t query 0 * nth (i * 2 ^ q + t) evals 0)) /\
      (forall i, (2 ^ (n - q) <= i < length out)%nat -> nth i o 0 = nth i out 0).
  Proof.
    intros Hq He Hqu Ho.
    assert (Hol : (2 ^ (n - q) <= length out)%nat) by (rewrite Ho, pow_sub_mul; apply pow2_le; lia).
    unfold rs_fold_right. rewrite (proj2 (check_fold_ok _ _ _ _ _)) by auto. cbn [negb].
    assert (FB : exists o, of_opt (fold_right_fallback le evals n query q out) = Ok o /\ length o = length out /\
      (forall i, (i < 2 ^ (n - q))%nat ->
         nth i o 0 = sumn (2 ^ q) (fun t => nth t query 0 * nth (i * 2 ^ q + t) evals 0)) /\
      (forall i, (2 ^ (n - q) <= i < length out)%nat -> nth i o 0 = nth i out 0)).
    { rewrite fold_right_fallback_spec by auto. eexists. split; [reflexivity|].
      rewrite map_length, seq_length. split; auto. split.
      - intros i Hi. rewrite nth_map_seq by lia. now rewrite (proj2 (Nat.ltb_lt _ _) Hi).
      - intros i Hi. rewrite nth_map_seq by lia. rewrite (proj2 (Nat.ltb_ge i _)) by lia. reflexivity. }
    destruct (Nat.eqb_spec q 1) as [->|NE]; auto.
    change (2 ^ 1)%nat with 2%nat in Hqu.
    rewrite (nth_error_nth_eq query 0 0), (nth_error_nth_eq query 1 0) by lia.
    destruct (feqb_spec F (nth 0 query 0 + nth 1 query 0) 1) as [E|E]; auto.
    assert (E2 : (2 ^ n = 2 * 2 ^ (n - 1))%nat) by (rewrite <- Nat.pow_succ_r'; f_equal; lia).
    destruct (fold_right_lerp_spec le evals (2 ^ n) (nth 1 query 0) 0 out _ Ho) as [o [Eo [Lo So]]]; try lia.
    exists o. split; auto. split; auto. split.
    - intros i Hi. rewrite So by lia. cbv zeta. rewrite sumn_2, Nat.add_0_r. change (2 ^ 1)%nat with 2%nat.
      rewrite (proj2 (Nat.ltb_lt (2 * i) _)), (proj2 (Nat.ltb_lt (2 * i + 1) _)) by lia.
      rewrite (Nat.mul_comm i 2). replace (nth 0 query 0) with (1 - nth 1 query 0) by (rewrite <- E; ring). ring.
    - intros i Hi. rewrite So by lia. cbv zeta. rewrite (proj2 (Nat.ltb_ge (2 * i) _)) by lia. reflexivity.
  Qed.

  Lemma lor3 t m i : (i < 2 ^ m)%nat -> Nat.lor (Nat.shiftl t m) i = (t * 2 ^ m + i)%nat.
  Proof. apply lor_shl. Qed.

  Lemma fold_left_fallback_spec le evals n query q ol :
    (q <= n)%nat -> (2 ^ n <= length evals)%nat -> (2 ^ q <= length query)%nat ->
    ol = (2 ^ (n - q - le) * 2 ^ le)%nat ->
    fold_left_fallback (F:=F) le evals n query q ol =
    Some (map (fun i => if (i <? 2 ^ (n - q))%nat
                        then sumn (2 ^ q) (fun t => nth t query 0 * nth (t * 2 ^ (n - q) + i) evals 0)
                        else 0) (seq 0 ol)).
  Proof.
    intros Hq He Hqu Ho. unfold fold_left_fallback. apply omap_fn. intros i Hi.
    rewrite inner_lt by lia. destruct (Nat.ltb_spec i (2 ^ (n - q))) as [L|L]; auto.
    rewrite firstn_length, Nat.min_l by lia. apply osum_ok. intros t Ht.
    rewrite <- Nat.lor_assoc, div_mod_lor, lor3 by auto.
    assert (B : (t * 2 ^ (n - q) + i < 2 ^ n)%nat).
    { replace (2 ^ n)%nat with (2 ^ q * 2 ^ (n - q))%nat by (rewrite <- Nat.pow_add_r; f_equal; lia). nia. }
    rewrite (nth_error_nth_eq query t 0), (nth_error_nth_eq evals _ 0) by lia. reflexivity.
  Qed.

  Lemma ltb_div i W p : (0 < W)%nat -> (i / W <? p)%nat = (i <? p * W)%nat.
  Proof.
    intros H. destruct (Nat.ltb_spec i (p * W)) as [L|L].
    - apply Nat.ltb_lt. apply Nat.div_lt_upper_bound; lia.
    - apply Nat.ltb_ge. apply Nat.div_le_lower_bound; lia.
  Qed.

  (** Facts about the packed bounds used by the left lerp folds. *)
  Lemma lerp_bounds lw n prefix ke :
    (lw < n)%nat -> (prefix <= 2 ^ n)%nat ->
    let W := (2 ^ lw)%nat in
    let H := (2 ^ (n - 1))%nat in
    let pivot := div_ceil (prefix - H) W in
    let packed_len := (2 ^ (n - 1 - lw))%nat in
    let upper := Nat.min (div_ceil prefix W) packed_len in
    (prefix <= ke * W)%nat ->
    (packed_len * W = H /\ pivot <= packed_len /\ pivot <= upper /\ upper <= packed_len /\ upper <= ke /\
     (0 < pivot -> packed_len <= ke) /\
     pivot * W <= upper * W /\ upper * W <= H /\ upper * W <= ke * W /\
     prefix - H <= pivot * W /\ Nat.min prefix H <= upper * W /\
     (0 < pivot * W -> upper * W = H /\ H + pivot * W <= ke * W) /\
     (forall ko, Nat.min prefix H <= ko * W -> upper <= ko))%nat.
  Proof.
    intros Hn Hp. cbv zeta. intros Hke. pose proof (pow2_gt0 lw) as W0.
    set (W := (2 ^ lw)%nat) in *.
    assert (PL : (2 ^ (n - 1 - lw) * W = 2 ^ (n - 1))%nat)
      by (unfold W; rewrite <- Nat.pow_add_r; f_equal; lia).
    assert (E2 : (2 ^ n = 2 * 2 ^ (n - 1))%nat) by (rewrite <- Nat.pow_succ_r'; f_equal; lia).
    set (H := (2 ^ (n - 1))%nat) in *. set (PK := (2 ^ (n - 1 - lw))%nat) in *.
    set (pivot := div_ceil (prefix - H) W). set (D := div_ceil prefix W).
    assert (MN : forall a b, (a * W < b * W -> a < b)%nat) by (intros a b X; now apply Nat.mul_lt_mono_pos_r in X).
    assert (ML : forall a b, (a <= b -> a * W <= b * W)%nat) by (intros a b X; now apply Nat.mul_le_mono_r).
    assert (PC : forall b, (prefix - H <= b * W -> pivot <= b)%nat).
    { intros b Hb. destruct (Nat.le_gt_cases pivot b) as [X|X]; auto. pose proof (div_ceil_lt _ _ b W0 X). lia. }
    assert (DC : forall b, (prefix <= b * W -> D <= b)%nat).
    { intros b Hb. destruct (Nat.le_gt_cases D b) as [X|X]; auto. pose proof (div_ceil_lt _ _ b W0 X). lia. }
    assert (PP := div_ceil_le (prefix - H) W W0). fold pivot in PP.
    assert (DD := div_ceil_le prefix W W0). fold D in DD.
    assert (P1 : (pivot <= PK)%nat) by (apply PC; lia).
    assert (P2 : (pivot <= D)%nat) by (apply PC; lia).
    assert (DK : (D <= ke)%nat) by (apply DC; lia).
    assert (P3 : (0 < pivot -> PK + pivot <= ke /\ PK <= D)%nat).
    { intros H0. assert (X := div_ceil_lt (prefix - H) W 0 W0 H0).
      assert (PK < D)%nat by (apply MN; lia). split; [|lia].
      assert (pivot <= ke - PK)%nat; [|lia]. apply PC. rewrite Nat.mul_sub_distr_r. lia. }
    pose proof (ML _ _ P1). pose proof (ML _ _ DK). pose proof (ML pivot (Nat.min D PK) ltac:(lia)).
    pose proof (ML (Nat.min D PK) PK ltac:(lia)). pose proof (ML (Nat.min D PK) D ltac:(lia)).
    repeat split; auto; try lia.
    - assert (Y : (0 < pivot)%nat) by (destruct pivot; lia). destruct (P3 Y) as [X _]. apply ML in X.
      rewrite Nat.mul_add_distr_r in X. lia.
    - intros ko Hko. destruct (Nat.le_gt_cases prefix H).
      + specialize (DC ko). lia.
      + assert (PK <= ko)%nat; [|lia]. destruct (Nat.le_gt_cases PK ko) as [|X]; auto.
        apply (proj1 (Nat.mul_lt_mono_pos_r W _ _ W0)) in X. lia.
  Qed.

  (** The value that position [x < 2^n] of the folded vector stands for: the stored value below
      [prefix], [suffix] above. *)
  Definition padded (evals : list F) (prefix : nat) (suffix : F) (x : nat) : F :=
    if (x <? prefix)%nat then nth x evals 0 else suffix.

  (** The stored scalars between [prefix] and the end of the last stored packed element hold [suffix]. *)
  Definition padding_ok (evals : list F) (prefix : nat) (suffix : F) (n : nat) : Prop :=
    forall x, (prefix <= x < length evals)%nat -> (x < 2 ^ n)%nat -> nth x evals 0 = suffix.

  Lemma padded_nth evals prefix suffix n x :
    padding_ok evals prefix suffix n -> (x < length evals)%nat -> (x < 2 ^ n)%nat ->
    nth x evals 0 = padded evals prefix suffix x.
  Proof. intros HP Hx Hn. unfold padded. destruct (Nat.ltb_spec x prefix); auto. Qed.

  Lemma check_left_ok el prefix n ol :
    check_left_lerp el prefix n ol = true <->
    (n <> 0 /\ prefix <= 2 ^ n /\ prefix <= el /\ Nat.min prefix (2 ^ (n - 1)) <= ol)%nat.
  Proof.
    unfold check_left_lerp. rewrite !andb_true_iff, !negb_true_iff, !Nat.ltb_ge, Nat.eqb_neq. tauto.
  Qed.

  Lemma lor_half i n : (0 < n -> i < 2 ^ (n - 1) -> Nat.lor i (2 ^ (n - 1)) = i + 2 ^ (n - 1))%nat.
  Proof. intros Hn Hi. rewrite Nat.lor_comm, lor_pow2 by auto. lia. Qed.

  Lemma fold_left_lerp_spec lw evals prefix suffix n lerp (out : list F) ke ko :
    length evals = (ke * 2 ^ lw)%nat -> length out = (ko * 2 ^ lw)%nat ->
    (0 < n)%nat -> (prefix <= 2 ^ n)%nat -> (prefix <= length evals)%nat ->
    (Nat.min prefix (2 ^ (n - 1)) <= length out)%nat ->
    padding_ok evals prefix suffix n ->
    exists o, fold_left_lerp lw evals prefix suffix n lerp out = Ok o /\ length o = length out /\
      let v := padded evals prefix suffix in
      (forall i, (i < 2 ^ (n - 1))%nat -> (i < length out)%nat ->
         (i < prefix)%nat \/ (suffix = 0 /\ ((0 < prefix)%nat \/ (lw < n)%nat)) ->
         nth i o 0 = (1 - lerp) * v i + lerp * v (i + 2 ^ (n - 1))%nat).
  Proof.
    intros Hke Hko Hn Hp1 Hp2 Hout HP.
    unfold fold_left_lerp. rewrite (proj2 (check_left_ok _ _ _ _)) by (repeat split; auto; lia). cbn [negb].
    pose proof (pow2_gt0 lw) as W0.
    assert (E2 : (2 ^ n = 2 * 2 ^ (n - 1))%nat) by (rewrite <- Nat.pow_succ_r'; f_equal; lia).
    destruct (Nat.ltb_spec lw n) as [L|L].
    - assert (Hk' : (prefix <= ke * 2 ^ lw)%nat) by lia.
      destruct (lerp_bounds lw n prefix ke L Hp1 Hk') as [B1 [B2 [B3 [B4 [U1 [U3 [C1 [C2 [C3 [C4 [C5 [C6 C7]]]]]]]]]]]].
      set (W := (2 ^ lw)%nat) in *. set (H := (2 ^ (n - 1))%nat) in *.
      set (PK := (2 ^ (n - 1 - lw))%nat) in *.
      set (pivot := div_ceil (prefix - H) W) in *. set (upper := Nat.min (div_ceil prefix W) PK) in *.
      assert (DE : (length evals / W = ke)%nat) by (rewrite Hke; apply Nat.div_mul; lia).
      assert (DO : (length out / W = ko)%nat) by (rewrite Hko; apply Nat.div_mul; lia).
      assert (U2 : (upper <= ko)%nat) by (apply C7; lia).
      assert (G : (((0 <? pivot) && ((length evals / W <? PK) || (length out / W <? pivot)))
         || (upper <? pivot) || (length out / W <? upper) || (length evals / W <? pivot))%bool = false).
      { rewrite DE, DO. rewrite (proj2 (Nat.ltb_ge upper pivot)), (proj2 (Nat.ltb_ge ko upper)), (proj2 (Nat.ltb_ge ke pivot)) by lia.
        rewrite !orb_false_r. destruct (Nat.ltb_spec 0 pivot) as [X|X]; auto. cbn [andb].
        specialize (U3 X). rewrite (proj2 (Nat.ltb_ge ke PK)), (proj2 (Nat.ltb_ge ko pivot)) by lia. reflexivity. }
      rewrite G.
      rewrite (omap_fn _ (fun i => if (i <? pivot * W)%nat then nth i evals 0 + (nth (PK * W + i) evals 0 - nth i evals 0) * lerp
                                   else if (i <? upper * W)%nat then nth i evals 0 + (suffix - nth i evals 0) * lerp else 0)).
      2:{ intros i Hi. rewrite !ltb_div by auto.
          destruct (Nat.ltb_spec i (pivot * W)) as [X|X].
          - rewrite (nth_error_nth_eq evals i 0), (nth_error_nth_eq evals (PK * W + i) 0) by lia. reflexivity.
          - destruct (Nat.ltb_spec i (upper * W)) as [Y|Y]; auto.
            rewrite (nth_error_nth_eq evals i 0) by lia. reflexivity. }
      eexists. split; [reflexivity|]. rewrite map_length, seq_length. split; auto. cbv zeta.
      intros i Hi Hil Hpr. set (v := padded evals prefix suffix). rewrite nth_map_seq by lia.
      destruct (Nat.ltb_spec i (pivot * W)) as [X|X].
      + rewrite B1, (Nat.add_comm H).
        rewrite !(padded_nth evals prefix suffix n) by (auto; lia). fold v. ring.
      + assert (Vh : v (i + H)%nat = suffix).
        { unfold v, padded. rewrite (proj2 (Nat.ltb_ge (i + H) prefix)) by lia. reflexivity. }
        rewrite Vh. destruct (Nat.ltb_spec i (upper * W)) as [Y|Y].
        * rewrite !(padded_nth evals prefix suffix n) by (auto; lia). fold v. ring.
        * destruct Hpr as [Hpr|[Hs _]]; [lia|]. unfold v, padded.
          rewrite (proj2 (Nat.ltb_ge i prefix)) by lia. rewrite Hs. ring.
    - destruct (Nat.ltb_spec 0 prefix) as [P0|P0].
      + assert (1 <= ke)%nat by (destruct ke; lia).
        assert (1 <= ko)%nat.
        { destruct ko; [|lia]. pose proof (pow2_gt0 (n - 1)). lia. }
        assert (LE : (2 ^ lw <= length evals)%nat) by nia. assert (LO : (2 ^ lw <= length out)%nat) by nia.
        rewrite (proj2 (Nat.ltb_ge _ _) LE), (proj2 (Nat.ltb_ge _ _) LO). cbn [orb].
        assert (HW : (2 ^ n <= 2 ^ lw)%nat) by (apply pow2_le; lia).
        rewrite (omap_fn _ (fun i => if (i <? 2 ^ (n - 1))%nat then nth i evals 0 + lerp * (nth (i + 2 ^ (n - 1)) evals 0 - nth i evals 0) else 0)).
        2:{ intros i Hi. destruct (Nat.ltb_spec i (2 ^ (n - 1))) as [X|X]; auto.
            rewrite lor_half by auto.
            rewrite (nth_error_nth_eq evals i 0), (nth_error_nth_eq evals (i + 2 ^ (n - 1)) 0) by lia. reflexivity. }
        cbn [obind of_opt]. eexists. split; [reflexivity|].
        rewrite app_length, map_length, seq_length, skipn_length. split; [lia|]. cbv zeta. intros i Hi Hil Hpr. set (v := padded evals prefix suffix).
        rewrite app_nth1 by (rewrite map_length, seq_length; lia). rewrite nth_map_seq by lia.
        rewrite (proj2 (Nat.ltb_lt i (2 ^ (n - 1)))) by lia.
        rewrite !(padded_nth evals prefix suffix n) by (auto; lia). fold v. ring.
      + exists out. repeat split; auto. cbv zeta. intros i Hi Hil Hpr. lia.
  Qed.

  (** The in-place fold yields a vector with the same representation invariant, one variable fewer. *)
  Lemma fold_left_lerp_inplace_spec lw evals prefix suffix n lerp ke :
    length evals = (ke * 2 ^ lw)%nat ->
    (0 < n)%nat -> (prefix <= 2 ^ n)%nat -> (prefix <= length evals)%nat ->
    padding_ok evals prefix suffix n ->
    exists o ko, fold_left_lerp_inplace lw evals prefix suffix n lerp = Ok o /\
      length o = (ko * 2 ^ lw)%nat /\
      let prefix' := Nat.min prefix (2 ^ (n - 1)) in
      (prefix' <= length o)%nat /\ padding_ok o prefix' suffix (n - 1) /\
      forall i, (i < 2 ^ (n - 1))%nat ->
        padded o prefix' suffix i =
        (1 - lerp) * padded evals prefix suffix i + lerp * padded evals prefix suffix (i + 2 ^ (n - 1)).
  Proof.
    intros Hke Hn Hp1 Hp2 HP.
    unfold fold_left_lerp_inplace. rewrite (proj2 (check_left_ok _ _ _ _)) by (repeat split; auto; lia). cbn [negb].
    pose proof (pow2_gt0 lw) as W0.
    assert (E2 : (2 ^ n = 2 * 2 ^ (n - 1))%nat) by (rewrite <- Nat.pow_succ_r'; f_equal; lia).
    (* enough: every stored position below 2^(n-1) is the interpolation *)
    assert (Fin : forall o ko, length o = (ko * 2 ^ lw)%nat -> (Nat.min prefix (2 ^ (n - 1)) <= length o)%nat ->
      (forall i, (i < 2 ^ (n - 1))%nat -> (i < length o)%nat -> nth i o 0 =
        (1 - lerp) * padded evals prefix suffix i + lerp * padded evals prefix suffix (i + 2 ^ (n - 1))) ->
      length o = (ko * 2 ^ lw)%nat /\
      (Nat.min prefix (2 ^ (n - 1)) <= length o)%nat /\ padding_ok o (Nat.min prefix (2 ^ (n - 1))) suffix (n - 1) /\
      forall i, (i < 2 ^ (n - 1))%nat ->
        padded o (Nat.min prefix (2 ^ (n - 1))) suffix i =
        (1 - lerp) * padded evals prefix suffix i + lerp * padded evals prefix suffix (i + 2 ^ (n - 1))).
    { intros o ko HL Hmin HS. split; auto. split; auto.
      assert (OUT : forall i, (Nat.min prefix (2 ^ (n - 1)) <= i < 2 ^ (n - 1))%nat ->
         (1 - lerp) * padded evals prefix suffix i + lerp * padded evals prefix suffix (i + 2 ^ (n - 1)) = suffix).
      { intros i Hi. unfold padded. rewrite (proj2 (Nat.ltb_ge i prefix)), (proj2 (Nat.ltb_ge (i + 2 ^ (n - 1)) prefix)) by lia. ring. }
      split.
      - intros x Hx Hx2. rewrite HS by lia. apply OUT. lia.
      - intros i Hi. unfold padded at 1. destruct (Nat.ltb_spec i (Nat.min prefix (2 ^ (n - 1)))).
        + apply HS; lia.
        + symmetry. apply OUT. lia. }
    destruct (Nat.ltb_spec lw n) as [L|L].
    - assert (Hk' : (prefix <= ke * 2 ^ lw)%nat) by lia.
      destruct (lerp_bounds lw n prefix ke L Hp1 Hk') as [B1 [B2 [B3 [B4 [U1 [U3 [C1 [C2 [C3 [C4 [C5 [C6 C7]]]]]]]]]]]].
      set (W := (2 ^ lw)%nat) in *. set (H := (2 ^ (n - 1))%nat) in *.
      set (PK := (2 ^ (n - 1 - lw))%nat) in *.
      set (pivot := div_ceil (prefix - H) W) in *. set (upper := Nat.min (div_ceil prefix W) PK) in *.
      assert (DE : (length evals / W = ke)%nat) by (rewrite Hke; apply Nat.div_mul; lia).
      assert (G : (((0 <? pivot) && ((length evals / W <? PK) || (PK <? pivot)))
         || (upper <? pivot) || (length evals / W <? upper))%bool = false).
      { rewrite DE. rewrite (proj2 (Nat.ltb_ge upper pivot)), (proj2 (Nat.ltb_ge ke upper)) by lia.
        rewrite !orb_false_r. destruct (Nat.ltb_spec 0 pivot) as [X|X]; auto. cbn [andb].
        specialize (U3 X). rewrite (proj2 (Nat.ltb_ge ke PK)), (proj2 (Nat.ltb_ge PK pivot)) by lia. reflexivity. }
      rewrite G.
      rewrite (omap_fn _ (fun i => if (i <? pivot * W)%nat then nth i evals 0 + (nth (PK * W + i) evals 0 - nth i evals 0) * lerp
                                   else nth i evals 0 + (suffix - nth i evals 0) * lerp)).
      2:{ intros i Hi. rewrite !ltb_div by auto.
          destruct (Nat.ltb_spec i (pivot * W)) as [X|X].
          - rewrite (nth_error_nth_eq evals i 0), (nth_error_nth_eq evals (PK * W + i) 0) by lia. reflexivity.
          - rewrite (nth_error_nth_eq evals i 0) by lia. reflexivity. }
      cbn [of_opt]. eexists. exists upper. split; [reflexivity|].
      apply Fin; rewrite map_length, seq_length; auto.
      intros i Hi Hi2. rewrite nth_map_seq by auto.
      set (v := padded evals prefix suffix).
      destruct (Nat.ltb_spec i (pivot * W)) as [X|X].
      + rewrite B1, (Nat.add_comm H).
        rewrite !(padded_nth evals prefix suffix n) by (auto; lia). fold v. ring.
      + replace (v (i + H)%nat) with suffix.
        2:{ unfold v, padded. rewrite (proj2 (Nat.ltb_ge (i + H) prefix)) by lia. reflexivity. }
        rewrite !(padded_nth evals prefix suffix n) by (auto; lia). fold v. ring.
    - assert (HW : (2 ^ n <= 2 ^ lw)%nat) by (apply pow2_le; lia).
      destruct (Nat.ltb_spec 0 prefix) as [P0|P0].
      + assert (1 <= ke)%nat by (destruct ke; lia).
        assert (LE : (2 ^ lw <= length evals)%nat) by nia.
        rewrite (proj2 (Nat.ltb_ge _ _) LE).
        rewrite (omap_fn _ (fun i => if (i <? 2 ^ (n - 1))%nat then nth i evals 0 + lerp * (nth (i + 2 ^ (n - 1)) evals 0 - nth i evals 0) else 0)).
        2:{ intros i Hi. destruct (Nat.ltb_spec i (2 ^ (n - 1))) as [X|X]; auto.
            rewrite lor_half by auto.
            rewrite (nth_error_nth_eq evals i 0), (nth_error_nth_eq evals (i + 2 ^ (n - 1)) 0) by lia. reflexivity. }
        cbn [obind of_opt]. eexists. exists ke. split; [reflexivity|].
        apply Fin; rewrite app_length, map_length, seq_length, skipn_length; try lia.
        intros i Hi Hi2.
        rewrite app_nth1 by (rewrite map_length, seq_length; lia). rewrite nth_map_seq by lia.
        rewrite (proj2 (Nat.ltb_lt i (2 ^ (n - 1)))) by lia.
        rewrite !(padded_nth evals prefix suffix n) by (auto; lia). ring.
      + exists evals, ke. split; auto. apply Fin; auto; [lia|].
        intros i Hi Hi2. unfold padded. rewrite (proj2 (Nat.ltb_ge i prefix)), (proj2 (Nat.ltb_ge (i + 2 ^ (n - 1)) prefix)) by lia.
        rewrite HP by lia. ring.
  Qed.

  Theorem fold_left_spec (same : bool) le evals n query q (out : list F) ke :
    length evals = (ke * (if same then 2 ^ le else 1))%nat ->
    (q <= n)%nat -> (2 ^ n <= length evals)%nat -> (2 ^ q <= length query)%nat ->
    length out = (2 ^ (n - q - le) * 2 ^ le)%nat ->
    exists o, rs_fold_left same le evals n query q out = Ok o /\ length o = length out /\
      (forall i, (i < 2 ^ (n - q))%nat ->
         nth i o 0 = sumn (2 ^ q) (fun t => nth t query 0 * nth (t * 2 ^ (n - q) + i) evals 0)).
  Proof.
    intros Hke Hq He Hqu Ho.
    assert (Hol : (2 ^ (n - q) <= length out)%nat) by (rewrite Ho, pow_sub_mul; apply pow2_le; lia).
    unfold rs_fold_left. rewrite (proj2 (check_fold_ok _ _ _ _ _)) by auto. cbn [negb].
    assert (FB : exists o, of_opt (fold_left_fallback le evals n query q (length out)) = Ok o /\ length o = length out /\
      (forall i, (i < 2 ^ (n - q))%nat ->
         nth i o 0 = sumn (2 ^ q) (fun t => nth t query 0 * nth (t * 2 ^ (n - q) + i) evals 0))).
    { rewrite fold_left_fallback_spec by auto. eexists. split; [reflexivity|].
      rewrite map_length, seq_length. split; auto.
      intros i Hi. rewrite nth_map_seq by lia. now rewrite (proj2 (Nat.ltb_lt _ _) Hi). }
    destruct (Nat.eqb_spec q 1) as [->|NE]; auto.
    change (2 ^ 1)%nat with 2%nat in Hqu.
    rewrite (nth_error_nth_eq query 0 0), (nth_error_nth_eq query 1 0) by lia.
    destruct (feqb_spec F (nth 0 query 0 + nth 1 query 0) 1) as [E|E]; auto.
    destruct same; auto. cbn [andb].
    assert (E2 : (2 ^ n = 2 * 2 ^ (n - 1))%nat) by (rewrite <- Nat.pow_succ_r'; f_equal; lia).
    destruct (fold_left_lerp_spec le evals (2 ^ n) 0 n (nth 1 query 0) out _ _ Hke Ho) as [o [Eo [Lo So]]]; try lia.
    { intros x Hx Hx2. lia. }
    exists o. split; auto. split; auto.
    intros i Hi. cbv zeta in So. rewrite So by lia. unfold padded.
    rewrite (proj2 (Nat.ltb_lt i _)), (proj2 (Nat.ltb_lt (i + 2 ^ (n - 1)) _)) by lia.
    rewrite sumn_2. cbn [Nat.mul]. rewrite !Nat.add_0_r, Nat.add_0_l, (Nat.add_comm i).
    replace (nth 0 query 0) with (1 - nth 1 query 0) by (rewrite <- E; ring). ring.
  Qed.

  Theorem fold_middle_spec le evals n query q start ol :
    (q + start <= n)%nat -> (2 ^ n <= length evals)%nat -> (2 ^ q <= length query)%nat ->
    ol = (2 ^ (n - q - le) * 2 ^ le)%nat ->
    exists o, fold_middle (F:=F) le evals n query q start ol = Ok o /\ length o = ol /\
      (forall i, (i < 2 ^ (n - q))%nat ->
         nth i o 0 = sumn (2 ^ q) (fun t => nth t query 0 *
            nth (i mod 2 ^ start + 2 ^ start * t + 2 ^ (start + q) * (i / 2 ^ start)) evals 0)).
  Proof.
    intros Hq He Hqu Ho.
    assert (Hol : (2 ^ (n - q) <= ol)%nat) by (rewrite Ho, pow_sub_mul; apply pow2_le; lia).
    unfold fold_middle. rewrite (proj2 (check_fold_ok _ _ _ _ _)) by (repeat split; auto; lia). cbn [negb].
    rewrite (proj2 (Nat.ltb_ge n (q + start))) by lia.
    pose proof (pow2_gt0 start) as S0.
    rewrite (omap_fn _ (fun i => if (i <? 2 ^ (n - q))%nat then sumn (2 ^ q) (fun t => nth t query 0 *
            nth (i mod 2 ^ start + 2 ^ start * t + 2 ^ (start + q) * (i / 2 ^ start)) evals 0) else 0)).
    2:{ intros i Hi. rewrite inner_lt by lia. destruct (Nat.ltb_spec i (2 ^ (n - q))) as [L|L]; auto.
        rewrite firstn_length, Nat.min_l by lia. rewrite div_mod_shl. apply osum_ok. intros t Ht.
        pose proof (Nat.mod_upper_bound i (2 ^ start) ltac:(lia)) as M.
        pose proof (Nat.div_mod i (2 ^ start) ltac:(lia)) as D.
        rewrite lor_shl.
        2:{ eapply Nat.lt_le_trans; [exact M|]. apply pow2_le. lia. }
        rewrite Nat.shiftl_mul_pow2.
        replace (i / 2 ^ start * 2 ^ (start + q) + i mod 2 ^ start + t * 2 ^ start)%nat
          with (i mod 2 ^ start + 2 ^ start * t + 2 ^ (start + q) * (i / 2 ^ start))%nat by lia.
        assert (B : (i mod 2 ^ start + 2 ^ start * t + 2 ^ (start + q) * (i / 2 ^ start) < 2 ^ n)%nat).
        { replace (2 ^ n)%nat with (2 ^ (n - q - start) * (2 ^ start * 2 ^ q))%nat
            by (rewrite <- !Nat.pow_add_r; f_equal; lia).
          assert (HJ : (i / 2 ^ start < 2 ^ (n - q - start))%nat).
          { apply Nat.div_lt_upper_bound; [lia|]. rewrite <- Nat.pow_add_r. replace (start + (n - q - start))%nat with (n - q)%nat by lia. auto. }
          rewrite Nat.pow_add_r. assert (2 ^ start * (t + 1) <= 2 ^ start * 2 ^ q)%nat by (apply Nat.mul_le_mono_l; lia).
          assert ((2 ^ start * 2 ^ q) * (i / 2 ^ start + 1) <= (2 ^ start * 2 ^ q) * 2 ^ (n - q - start))%nat
            by (apply Nat.mul_le_mono_l; lia). lia. }
        rewrite (nth_error_nth_eq query t 0) by lia. cbn [obind].
        rewrite (nth_error_nth_eq evals _ 0) by lia. reflexivity. }
    eexists. split; [reflexivity|]. rewrite map_length, seq_length. split; auto.
    intros i Hi. rewrite nth_map_seq by lia. now rewrite (proj2 (Nat.ltb_lt _ _) Hi).
  Qed.
End Proofs.

Arguments padded {_} _ _ _ _.
Arguments padding_ok {_} _ _ _ _.
