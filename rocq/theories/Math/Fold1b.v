(** C17: the folds of tables of 1-bit values. *)
Require Import Coq.setoid_ring.Ring Coq.Arith.Arith Coq.Lists.List Coq.Bool.Bool Coq.NArith.NArith Lia.
From Verif Require Import Base.Fld Base.Lists Base.Sums Math.MleSpec Math.MleModel Math.TensorProps
  Math.MleProofs Field.Examples.
Import ListNotations.
Local Close Scope N_scope.
Local Open Scope nat_scope.

Lemma flat_map_seq {A} (f : nat -> nat -> A) w n :
  flat_map (fun i => map (f i) (seq 0 w)) (seq 0 n) = map (fun x => f (x / w) (x mod w)) (seq 0 (n * w)).
Proof.
  destruct (Nat.eq_dec w 0) as [->|W].
  { rewrite Nat.mul_0_r. cbn [seq map]. induction (seq 0 n); auto. }
  induction n as [|n IH]; [reflexivity|].
  rewrite seq_S, flat_map_app, IH. replace (S n * w) with (n * w + w) by lia.
  rewrite seq_app, map_app. f_equal. cbn [flat_map Nat.add]. rewrite app_nil_r.
  rewrite <- (Nat.add_0_r (n * w)).
  assert (G : forall m s, s + m <= w -> map (f n) (seq s m) = map (fun x => f (x / w) (x mod w)) (seq (n * w + s) m)).
  { induction m as [|m IHm]; intros s Hs; [reflexivity|]. cbn [seq map]. f_equal.
    - rewrite Nat.add_comm, Nat.div_add, Nat.mod_add by auto. rewrite Nat.div_small, Nat.mod_small by lia. reflexivity.
    - rewrite IHm by lia. do 3 f_equal. lia. }
  apply G. lia.
Qed.

Lemma bits_val_spec (f : nat -> bool) n :
  let v := List.fold_right Nat.add 0 (map (fun k => if f k then 2 ^ k else 0) (seq 0 n)) in
  v < 2 ^ n /\ forall k, k < n -> Nat.testbit v k = f k.
Proof.
  induction n as [|n IH]; cbv zeta.
  - split; [cbn; lia|]. intros; lia.
  - rewrite seq_S, map_app, fold_right_app. cbn [map List.fold_right Nat.add].
    set (g := fun k => if f k then 2 ^ k else 0) in *.
    assert (A : forall l x, List.fold_right Nat.add x l = List.fold_right Nat.add 0 l + x)
      by (induction l; intros; cbn; auto; rewrite IHl; lia).
    rewrite A. cbv zeta in IH. destruct IH as [IH1 IH2]. set (v := List.fold_right Nat.add 0 (map g (seq 0 n))) in *.
    rewrite Nat.add_0_r. cbn [Nat.pow]. replace (g n) with (if f n then 2 ^ n else 0) by reflexivity. split.
    + destruct (f n); lia.
    + intros k Hk. assert (v / 2 ^ n = 0) by now apply Nat.div_small.
      destruct (Nat.eq_dec k n) as [->|NE].
      * rewrite Nat.testbit_eqb. destruct (f n).
        -- replace (v + 2 ^ n) with (v + 1 * 2 ^ n) by lia. rewrite Nat.div_add by (apply Nat.pow_nonzero; lia).
           rewrite H. reflexivity.
        -- rewrite Nat.add_0_r, H. reflexivity.
      * rewrite <- (IH2 k) by lia. destruct (f n); [|now rewrite Nat.add_0_r].
        rewrite <- (Nat.mod_pow2_bits_low (v + 2 ^ n) n k) by lia. f_equal.
        replace (v + 2 ^ n) with (v + 1 * 2 ^ n) by lia.
        rewrite Nat.mod_add by (apply Nat.pow_nonzero; lia). now apply Nat.mod_small.
Qed.

Lemma byte_at_lt bits i : byte_at bits i < 256.
Proof. exact (proj1 (bits_val_spec (fun k => nth (8 * i + k) bits false) 8)). Qed.

Lemma byte_at_testbit bits i k : k < 8 -> Nat.testbit (byte_at bits i) k = nth (8 * i + k) bits false.
Proof. exact (proj2 (bits_val_spec (fun k => nth (8 * i + k) bits false) 8) k). Qed.

Section F1.
  Variable F : field.
  Local Open Scope fld_scope.
  Add Ring Fring : (f_ring F).

  (** Sum of the query values selected by the bits of [b]. *)
  Definition sel (query : list F) (n : nat) (b : nat -> bool) : F :=
    sumn n (fun j => if b j then nth j query 0 else 0).

  Lemma cached_table_spec lq (query : list F) : (2 ^ lq <= length query)%nat ->
    cached_table lq query = Some (map (fun i => sel query (2 ^ lq) (Nat.testbit i)) (seq 0 (2 ^ 2 ^ lq))).
  Proof.
    intros HL. unfold cached_table. apply omap_fn. intros i _.
    unfold sel. generalize HL. generalize (2 ^ lq)%nat as n. clear HL.
    induction n as [|n IH]; intros HL.
    - reflexivity.
    - rewrite seq_S, ofold_app, IH by lia. cbn [obind ofold Nat.add]. rewrite sumn_S.
      destruct (Nat.testbit i n).
      + rewrite (nth_error_nth_eq _ n 0) by lia. cbn [obind]. reflexivity.
      + f_equal. ring.
  Qed.

  Definition generic (bits : list bool) (query : list F) (q i : nat) : F :=
    sumn (2 ^ q) (fun t => nth t query 0 * of_bit (nth (i * 2 ^ q + t) bits false)).

  Lemma sel_generic bits query q i b :
    (forall t, (t < 2 ^ q)%nat -> b t = nth (i * 2 ^ q + t) bits false) ->
    sel query (2 ^ q) b = generic bits query q i.
  Proof.
    intros H. apply sumn_ext. intros t Ht. rewrite H by auto.
    unfold of_bit. destruct (nth _ bits false); ring.
  Qed.

  Lemma small_spec lw le lq bits (query out : list F) :
    (lq < 3)%nat -> (lw + lq <= le)%nat -> (2 ^ lq <= length query)%nat ->
    (n_bytes bits * 2 ^ (3 - lq) <= length out)%nat ->
    exists o, fold_right_1bit_small lw le lq bits query out = Some (Some o) /\ length o = length out /\
      (forall i, (i < n_bytes bits * 2 ^ (3 - lq))%nat -> nth i o 0 = generic bits query lq i) /\
      (forall i, (n_bytes bits * 2 ^ (3 - lq) <= i < length out)%nat -> nth i o 0 = nth i out 0).
  Proof.
    intros H3 Hw HQ HO. unfold fold_right_1bit_small.
    rewrite (proj2 (Nat.leb_gt 3 lq)), (proj2 (Nat.ltb_ge le (lw + lq))) by lia. cbn [orb].
    rewrite cached_table_spec by auto. cbn [obind]. rewrite (proj2 (Nat.ltb_ge _ _) HO).
    set (W := (n_bytes bits * 2 ^ (3 - lq))%nat) in *.
    assert (P8 : (2 ^ (3 - lq) * 2 ^ lq = 8)%nat).
    { rewrite <- Nat.pow_add_r. replace (3 - lq + lq)%nat with 3%nat by lia. reflexivity. }
    pose proof (pow2_gt0 (3 - lq)) as PB. set (PBv := (2 ^ (3 - lq))%nat) in *.
    rewrite (omap_fn _ (fun i => if (i <? W)%nat then generic bits query lq i else nth i out 0)).
    - cbn [obind]. eexists. split; [reflexivity|]. split; [now rewrite map_length, seq_length|].
      split; intros i Hi; rewrite nth_map_seq by lia.
      + now rewrite (proj2 (Nat.ltb_lt _ _) Hi).
      + rewrite (proj2 (Nat.ltb_ge i W)) by lia. reflexivity.
    - intros i Hi. destruct (Nat.ltb_spec i W) as [L|L]; [|apply nth_error_nth_eq; lia].
      set (idx := Nat.land _ _).
      assert (EI : idx = (Nat.shiftr (byte_at bits (i / PBv)) (i mod PBv * 2 ^ lq) mod 2 ^ 2 ^ lq)%nat).
      { unfold idx. rewrite <- Nat.land_ones. f_equal. unfold Nat.ones. rewrite Nat.shiftl_1_l. lia. }
      assert (HI : (idx < 2 ^ 2 ^ lq)%nat) by (rewrite EI; apply Nat.mod_upper_bound, Nat.pow_nonzero; lia).
      rewrite (nth_error_nth_eq _ idx 0) by (rewrite map_length, seq_length; auto). f_equal.
      rewrite nth_map_seq by auto. apply sel_generic. intros t Ht.
      rewrite EI, Nat.mod_pow2_bits_low by auto. rewrite Nat.shiftr_spec by lia.
      pose proof (Nat.mod_upper_bound i PBv ltac:(lia)).
      pose proof (Nat.div_mod i PBv ltac:(lia)) as D.
      rewrite byte_at_testbit.
      + f_equal. rewrite <- P8. rewrite D at 3. lia.
      + assert ((i mod PBv + 1) * 2 ^ lq <= PBv * 2 ^ lq)%nat by (apply Nat.mul_le_mono_r; lia). lia.
  Qed.

  (* ---------------------------------------------------------------- *)
  (** partial-sum tables *)

  Lemma ofold_upd_add (value : F) idxs : forall s,
    NoDup idxs -> (forall x, In x idxs -> (x < length s)%nat) ->
    exists s', ofold (fun s ik => do x <- nth_error s ik; Some (upd s ik (x + value))) idxs s = Some s' /\
      length s' = length s /\
      forall x, (x < length s)%nat -> nth x s' 0 = if existsb (Nat.eqb x) idxs then nth x s 0 + value else nth x s 0.
  Proof.
    induction idxs as [|a l IH]; intros s ND HB.
    - exists s. cbn. auto.
    - cbn [ofold]. rewrite (nth_error_nth_eq _ a 0) by (apply HB; now left). cbn [obind].
      inversion_clear ND as [|? ? NI ND'].
      destruct (IH (upd s a (nth a s 0 + value)) ND') as [s' [E [L N]]].
      { intros x Hx. rewrite upd_length. apply HB. now right. }
      exists s'. split; auto. rewrite upd_length in L, N. split; auto.
      intros x Hx. rewrite N by auto. cbn [existsb]. rewrite upd_nth.
      assert (Ha : (a < length s)%nat) by (apply HB; now left).
      rewrite (proj2 (Nat.ltb_lt _ _) Ha). rewrite andb_true_r.
      destruct (Nat.eqb_spec x a) as [->|NE]; cbn [orb].
      + replace (existsb (Nat.eqb a) l) with false; [reflexivity|]. symmetry.
        apply not_true_is_false. intros C. apply existsb_exists in C. destruct C as [y [Hy Ey]].
        apply Nat.eqb_eq in Ey. subst y. contradiction.
      + reflexivity.
  Qed.

  Definition step_idx (j : nat) : list nat :=
    flat_map (fun c => map (fun k => (2 ^ j + c * (2 * 2 ^ j) + k)%nat) (seq 0 (2 ^ j))) (seq 0 (256 / (2 * 2 ^ j))).

  Lemma step_idx_ok : forall j, (j < 8)%nat ->
    NoDup (step_idx j) /\ (forall x, In x (step_idx j) -> (x < 256)%nat) /\
    forall x, (x < 256)%nat -> existsb (Nat.eqb x) (step_idx j) = Nat.testbit x j.
  Proof.
    intros j Hj. unfold step_idx. set (M := (2 ^ j)%nat).
    assert (M0 : (0 < M)%nat) by apply pow2_gt0.
    assert (MC : (256 / (2 * M) * (2 * M) = 256)%nat).
    { unfold M. rewrite <- Nat.pow_succ_r'. change 256%nat with (2 ^ 8)%nat. rewrite <- Nat.pow_sub_r by lia.
      rewrite <- Nat.pow_add_r. f_equal. lia. }
    set (C := (256 / (2 * M))%nat) in *.
    assert (IN : forall x, In x (flat_map (fun c => map (fun k => (M + c * (2 * M) + k)%nat) (seq 0 M)) (seq 0 C)) <->
       exists c k, (c < C /\ k < M /\ x = M + c * (2 * M) + k)%nat).
    { intros x. rewrite in_flat_map. split.
      - intros [c [Hc H]]. apply in_map_iff in H. destruct H as [k [<- Hk]]. apply in_seq in Hc, Hk.
        exists c, k. lia.
      - intros [c [k [Hc [Hk ->]]]]. exists c. split; [apply in_seq; lia|]. apply in_map_iff. exists k.
        split; auto. apply in_seq. lia. }
    assert (DM : forall c k, (k < M)%nat -> ((M + c * (2 * M) + k) / M = 1 + 2 * c /\ (M + c * (2 * M) + k) mod M = k)%nat).
    { intros c k Hk. replace (M + c * (2 * M) + k)%nat with (k + (1 + 2 * c) * M)%nat by lia.
      rewrite Nat.div_add, Nat.mod_add, Nat.div_small, Nat.mod_small by lia. lia. }
    split; [|split].
    - rewrite (flat_map_seq (fun c k => (M + c * (2 * M) + k)%nat)). apply NoDup_map_in; [apply seq_NoDup|].
      intros x y _ _ E.
      pose proof (Nat.mod_upper_bound x M ltac:(lia)). pose proof (Nat.mod_upper_bound y M ltac:(lia)).
      destruct (DM (x / M)%nat (x mod M)%nat) as [D1 D2]; auto.
      destruct (DM (y / M)%nat (y mod M)%nat) as [D3 D4]; auto.
      rewrite E in D1, D2. rewrite (Nat.div_mod x M), (Nat.div_mod y M) by lia.
      assert (x / M = y / M)%nat by lia. congruence.
    - intros x Hx. apply IN in Hx. destruct Hx as [c [k [Hc [Hk ->]]]].
      assert ((c + 1) * (2 * M) <= C * (2 * M))%nat by (apply Nat.mul_le_mono_r; lia). lia.
    - intros x Hx. apply eq_true_iff_eq. rewrite existsb_exists.
      rewrite Nat.testbit_eqb, Nat.eqb_eq. fold M. split.
      + intros [y [Hy E]]. apply Nat.eqb_eq in E. subst y. apply IN in Hy. destruct Hy as [c [k [Hc [Hk ->]]]].
        destruct (DM c k Hk) as [-> _]. rewrite Nat.mul_comm, Nat.mod_add by lia. reflexivity.
      + intros O. exists x. split; [|apply Nat.eqb_refl]. apply IN.
        exists (x / M / 2)%nat, (x mod M)%nat.
        pose proof (Nat.div_mod x M ltac:(lia)) as D. pose proof (Nat.div_mod (x / M) 2 ltac:(lia)) as D2.
        rewrite O in D2. pose proof (Nat.mod_upper_bound x M ltac:(lia)). split; [|split]; auto.
        * rewrite Nat.div_div by lia. apply Nat.div_lt_upper_bound; [lia|]. rewrite (Nat.mul_comm M 2). lia.
        * rewrite D at 1. rewrite D2 at 1. lia.
  Qed.

  Lemma sums_table_spec (values : list F) cs : (cs + 8 <= length values)%nat ->
    exists t, sums_table values cs = Some t /\ length t = 256%nat /\
      forall x, (x < 256)%nat -> nth x t 0 = sumn 8 (fun j => if Nat.testbit x j then nth (cs + j) values 0 else 0).
  Proof.
    intros HL. unfold sums_table.
    assert (G : forall n, (n <= 8)%nat -> exists t,
       ofold (fun s j => do v <- nth_error values (cs + j); sums_step s v j) (seq 0 n) (repeat 0 256) = Some t /\
       length t = 256%nat /\
       forall x, (x < 256)%nat -> nth x t 0 = sumn n (fun j => if Nat.testbit x j then nth (cs + j) values 0 else 0)).
    { induction n as [|n IH]; intros Hn.
      - exists (repeat 0 256). split; [reflexivity|]. split; [apply repeat_length|].
        intros x Hx. now rewrite nth_repeat0.
      - destruct IH as [t [E [L N]]]; [lia|]. rewrite seq_S, ofold_app, E. cbn [obind ofold Nat.add].
        rewrite (nth_error_nth_eq _ (cs + n) 0) by lia. cbn [obind].
        unfold sums_step. cbv zeta. destruct (step_idx_ok n ltac:(lia)) as [ND [HB EX]].
        destruct (ofold_upd_add (nth (cs + n) values 0) (step_idx n) t ND) as [s' [E' [L' N']]].
        { intros. rewrite L. auto. }
        unfold step_idx in E'. rewrite E'. cbn [obind].
        exists s'. split; auto. split; [congruence|]. intros x Hx.
        rewrite N' by lia. rewrite EX, sumn_S, N by auto. destruct (Nat.testbit x n); ring. }
    apply G. lia.
  Qed.

  Lemma nth_concat_blocks (ts : list (list F)) : forall c x,
    Forall (fun t => length t = 256%nat) ts -> (c < length ts)%nat -> (x < 256)%nat ->
    nth_error (concat ts) (c * 256 + x) = Some (nth x (nth c ts []) 0).
  Proof.
    induction ts as [|t ts IH]; intros c x HF Hc Hx; [cbn in Hc; lia|].
    inversion_clear HF as [|? ? Ht HF']. cbn [concat]. destruct c as [|c].
    - cbn [Nat.mul Nat.add nth]. rewrite nth_error_app1 by lia. apply nth_error_nth_eq. lia.
    - rewrite nth_error_app2 by lia. rewrite Ht.
      replace (S c * 256 + x - 256)%nat with (c * 256 + x)%nat by lia. apply IH; auto. cbn in Hc. lia.
  Qed.

  Lemma create_partial_sums_spec (values : list F) m : length values = (8 * m)%nat ->
    exists ts, create_partial_sums values = Some ts /\
      forall c x, (c < m)%nat -> (x < 256)%nat ->
        nth_error ts (c * 256 + x) = Some (sumn 8 (fun j => if Nat.testbit x j then nth (8 * c + j) values 0 else 0)).
  Proof.
    intros HL. unfold create_partial_sums. rewrite HL, Nat.mul_comm, Nat.mod_mul, Nat.eqb_refl, Nat.div_mul by lia.
    assert (exists tbl : nat -> list F, forall c, (c < m)%nat -> sums_table values (8 * c) = Some (tbl c) /\
        length (tbl c) = 256%nat /\
        forall x, (x < 256)%nat -> nth x (tbl c) 0 = sumn 8 (fun j => if Nat.testbit x j then nth (8 * c + j) values 0 else 0)).
    { exists (fun c => match sums_table values (8 * c) with Some t => t | None => [] end).
      intros c Hc. destruct (sums_table_spec values (8 * c)) as [t [E [L N]]]; [lia|]. rewrite E. auto. }
    destruct H as [tbl Ht].
    rewrite (omap_fn _ tbl) by (intros i Hi; apply Ht; auto). cbn [obind].
    eexists. split; [reflexivity|]. intros c x Hc Hx.
    rewrite nth_concat_blocks; auto.
    - f_equal. rewrite nth_map_seq by auto. now apply Ht.
    - apply Forall_forall. intros t Hin. apply in_map_iff in Hin. destruct Hin as [c' [<- Hc']].
      apply in_seq in Hc'. apply Ht. lia.
    - now rewrite map_length, seq_length.
  Qed.

  Lemma sumn_8_blocks m (f : nat -> F) : sumn (8 * m) f = sumn m (fun c => sumn 8 (fun j => f (8 * c + j)%nat)).
  Proof.
    induction m as [|m IH]; [reflexivity|].
    replace (8 * S m)%nat with (8 * m + 8)%nat by lia. rewrite sumn_split, IH, (sumn_S _ m). reflexivity.
  Qed.

  Lemma medium_spec lq bits (query out : list F) m :
    (3 <= lq)%nat -> (2 ^ lq <= length query)%nat -> n_bytes bits = (m * 2 ^ (lq - 3))%nat -> (m <= length out)%nat ->
    exists o, fold_right_1bit_medium lq bits query out = Some (Some o) /\ length o = length out /\
      (forall i, (i < m)%nat -> nth i o 0 = generic bits query lq i) /\
      (forall i, (m <= i < length out)%nat -> nth i o 0 = nth i out 0).
  Proof.
    intros H3 HQ HB HO. unfold fold_right_1bit_medium. rewrite (proj2 (Nat.ltb_ge lq 3)) by lia.
    set (T := (2 ^ (lq - 3))%nat) in *.
    assert (E8 : (2 ^ lq = 8 * T)%nat).
    { unfold T. change 8%nat with (2 ^ 3)%nat. rewrite <- Nat.pow_add_r. f_equal. lia. }
    destruct (create_partial_sums_spec (firstn (2 ^ lq) query) T) as [ts [Ets Nts]].
    { rewrite firstn_length. lia. }
    rewrite Ets. cbn [obind].
    pose proof (pow2_gt0 (lq - 3)) as T0. fold T in T0.
    set (part := fun i c => sumn 8 (fun j => nth (8 * c + j) query 0 * of_bit (nth (i * 2 ^ lq + (8 * c + j)) bits false))).
    assert (STEP : forall i c, (c < T)%nat ->
      nth_error ts (c * 256 + byte_at bits (i * T + c)) = Some (part i c)).
    { intros i c Hc. rewrite Nts by (auto; apply byte_at_lt). f_equal. apply sumn_ext. intros j Hj.
      rewrite byte_at_testbit by auto. rewrite nth_firstn_lt by lia.
      replace (8 * (i * T + c) + j)%nat with (i * 2 ^ lq + (8 * c + j))%nat by (rewrite E8; lia).
      unfold of_bit. destruct (nth _ bits false); ring. }
    assert (G : forall b, (b <= m * T)%nat -> exists o,
      ofold (medium_step lq ts bits) (seq 0 b) (out, 0%nat, 0%nat, 0) =
        Some (o, b / T, b mod T, sumn (b mod T) (part (b / T)))%nat /\ length o = length out /\
      (forall i, (i < b / T)%nat -> nth i o 0 = generic bits query lq i) /\
      (forall i, (b / T <= i < length out)%nat -> nth i o 0 = nth i out 0)).
    { induction b as [|b IH]; intros Hb.
      - exists out. rewrite Nat.div_0_l, Nat.mod_0_l by lia. cbn [seq ofold]. repeat split; auto. intros; lia.
      - destruct IH as [o [E [L [N1 N2]]]]; [lia|]. rewrite seq_S, ofold_app, E. cbn [obind ofold Nat.add].
        unfold medium_step at 1.
        pose proof (Nat.div_mod b T ltac:(lia)) as D. pose proof (Nat.mod_upper_bound b T ltac:(lia)) as MB.
        pose proof (STEP (b / T)%nat (b mod T)%nat MB) as SB. replace (b / T * T + b mod T)%nat with b in SB by lia.
        rewrite SB. cbn [obind].
        fold T. destruct (Nat.eqb_spec (S (b mod T)) T) as [ET|NT].
        + assert (DS : (S b / T = S (b / T) /\ S b mod T = 0)%nat).
          { replace (S b) with (0 + S (b / T) * T)%nat by lia.
            rewrite Nat.div_add, Nat.mod_add by lia. rewrite Nat.div_0_l, Nat.mod_0_l by lia. lia. }
          destruct DS as [-> ->].
          assert (LT : (b / T < m)%nat) by (apply Nat.div_lt_upper_bound; lia).
          rewrite L, (proj2 (Nat.ltb_lt _ _)) by lia. cbn [obind].
          eexists. split; [reflexivity|]. split; [now rewrite upd_length|].
          split; intros i Hi; rewrite upd_nth, L, (proj2 (Nat.ltb_lt (b / T) (length out))) by lia; rewrite andb_true_r.
          * destruct (Nat.eqb_spec i (b / T)) as [->|NE]; [|apply N1; lia].
            rewrite <- sumn_S, ET. unfold generic. rewrite E8 at 1. rewrite sumn_8_blocks. reflexivity.
          * rewrite (proj2 (Nat.eqb_neq i (b / T))) by lia. apply N2. lia.
        + assert (DS : (S b / T = b / T /\ S b mod T = S (b mod T))%nat).
          { replace (S b) with (S (b mod T) + b / T * T)%nat by lia.
            rewrite Nat.div_add, Nat.mod_add by lia. rewrite Nat.div_small, Nat.mod_small by lia. lia. }
          destruct DS as [-> ->]. cbn [obind]. exists o. split; [|auto]. f_equal. f_equal. now rewrite sumn_S. }
    destruct (G (m * T)%nat) as [o [E [L [N1 N2]]]]; [lia|].
    rewrite HB, E. cbn [obind]. rewrite Nat.div_mul in * by lia. exists o. auto.
  Qed.

  (** The value of the fold: the inner product of the query with consecutive blocks of bits. *)
  Theorem fold_right_1b_correct can_iter lw le bits n (query : list F) q out :
    (can_iter = true -> (3 <= lw)%nat) ->
    length bits = (2 ^ (n - lw) * 2 ^ lw)%nat ->
    (q <= n)%nat -> (2 ^ q <= length query)%nat -> length out = (2 ^ (n - q - le) * 2 ^ le)%nat ->
    exists o, fold_right_1b can_iter lw le bits n query q out = Ok o /\ length o = length out /\
      (forall i, (i < 2 ^ (n - q))%nat ->
         nth i o 0 = sumn (2 ^ q) (fun t => nth t query 0 * of_bit (nth (i * 2 ^ q + t) bits false))) /\
      (forall i, (2 ^ (n - q) <= i < length out)%nat -> nth i o 0 = nth i out 0).
  Proof.
    intros HC HB Hq HQ HO.
    assert (Hbl : (2 ^ n <= length bits)%nat) by (rewrite HB, pow_sub_mul; apply pow2_le; lia).
    assert (Hol : (2 ^ (n - q) <= length out)%nat) by (rewrite HO, pow_sub_mul; apply pow2_le; lia).
    unfold fold_right_1b. rewrite (proj2 (check_fold_ok _ _ _ _ _)) by auto. cbn [negb].
    assert (FB : exists o, rs_fold_right le (map of_bit bits) n query q out = Ok o /\ length o = length out /\
      (forall i, (i < 2 ^ (n - q))%nat -> nth i o 0 = generic bits query q i) /\
      (forall i, (2 ^ (n - q) <= i < length out)%nat -> nth i o 0 = nth i out 0)).
    { destruct (fold_right_spec F le (map of_bit bits) n query q out) as [o [E [L [N1 N2]]]]; auto.
      { now rewrite map_length. }
      exists o. split; auto. split; auto. split; auto. intros i Hi. rewrite N1 by auto.
      apply sumn_ext. intros t Ht. f_equal. apply nth_map_lt. 
      enough ((i + 1) * 2 ^ q <= 2 ^ n)%nat by lia.
      replace n with (n - q + q)%nat by lia. rewrite Nat.pow_add_r. apply Nat.mul_le_mono_r. lia. }
    unfold fold_right_1bit_evals.
    destruct (Nat.ltb_spec n lw) as [Lw|Lw]; cbn [orb]; [exact FB|].
    destruct can_iter; cbn [negb]; [|exact FB]. specialize (HC eq_refl).
    assert (EB : length bits = (2 ^ n)%nat) by (rewrite HB, pow_sub_mul; f_equal; lia).
    assert (E8 : (2 ^ n = 2 ^ (n - 3) * 8)%nat).
    { change 8%nat with (2 ^ 3)%nat. rewrite <- Nat.pow_add_r. f_equal. lia. }
    assert (NB : n_bytes bits = (2 ^ (n - 3))%nat) by (unfold n_bytes; rewrite EB, E8, Nat.div_mul; lia).
    destruct (Nat.ltb_spec q 3) as [Lq|Lq].
    - assert (EW : (n_bytes bits * 2 ^ (3 - q) = 2 ^ (n - q))%nat).
      { rewrite NB, <- Nat.pow_add_r. f_equal. lia. }
      destruct (Nat.le_gt_cases (lw + q) le) as [Lx|Lx].
      + destruct (small_spec lw le q bits query out Lq Lx HQ) as [o [E [L [N1 N2]]]]; [lia|].
        rewrite E. exists o. rewrite EW in *. auto.
      + unfold fold_right_1bit_small. rewrite (proj2 (Nat.ltb_lt le (lw + q))) by lia. rewrite orb_true_r. exact FB.
    - destruct (Nat.leb_spec q 7) as [L7|L7]; [|exact FB].
      destruct (medium_spec q bits query out (2 ^ (n - q)) Lq HQ) as [o [E [L [N1 N2]]]]; auto.
      { rewrite NB, <- Nat.pow_add_r. f_equal. lia. }
      rewrite E. exists o. auto.
  Qed.

  (** In the words of the property: the specialised fold and the generic one return the same vector. *)
  Corollary fold_right_1b_same can_iter lw le bits n (query : list F) q out :
    (can_iter = true -> (3 <= lw)%nat) ->
    length bits = (2 ^ (n - lw) * 2 ^ lw)%nat ->
    (q <= n)%nat -> (2 ^ q <= length query)%nat -> length out = (2 ^ (n - q - le) * 2 ^ le)%nat ->
    fold_right_1b can_iter lw le bits n query q out = rs_fold_right le (map of_bit bits) n query q out.
  Proof.
    intros HC HB Hq HQ HO.
    destruct (fold_right_1b_correct can_iter lw le bits n query q out) as [o [E [L [N1 N2]]]]; auto.
    destruct (fold_right_1b_correct false lw le bits n query q out) as [o' [E' [L' [N1' N2']]]]; auto; [discriminate|].
    assert (EQ : o = o').
    { apply (list_eq_nth _ _ 0); [congruence|]. intros i Hi. rewrite L in Hi.
      destruct (Nat.lt_ge_cases i (2 ^ (n - q))); [rewrite N1, N1'|rewrite N2, N2']; auto. }
    rewrite E. subst o'. rewrite <- E'.
    unfold fold_right_1b. assert (Hbl : (2 ^ n <= length bits)%nat) by (rewrite HB, pow_sub_mul; apply pow2_le; lia).
    assert (Hol : (2 ^ (n - q) <= length out)%nat) by (rewrite HO, pow_sub_mul; apply pow2_le; lia).
    rewrite (proj2 (check_fold_ok _ _ _ _ _)) by auto. cbn [negb].
    unfold fold_right_1bit_evals. cbn [negb]. rewrite orb_true_r. reflexivity.
  Qed.

  (* ---------------------------------------------------------------- *)
  (** left fold: 1-bit table, 128-bit query *)

  Lemma lookup_masks_spec le byte i lane :
    (le <= 3)%nat -> (byte < 256)%nat -> (i < 8 / 2 ^ le)%nat -> (lane < 2 ^ le)%nat ->
    exists m, nth_error (lookup_masks le) (byte * (8 / 2 ^ le) + i) = Some m /\
      nth_error m lane = Some (Nat.testbit byte (i * 2 ^ le + lane)).
  Proof.
    intros Hle Hb Hi Hl. unfold lookup_masks.
    set (items := (8 / 2 ^ le)%nat) in *.
    rewrite (flat_map_seq (fun i j => map (fun k => Nat.testbit
       (Nat.shiftr (Nat.land (Nat.shiftr i (j * 2 ^ le)) (2 ^ 2 ^ le - 1)) k) 0) (seq 0 (2 ^ le)))).
    assert (B : (byte * items + i < 256 * items)%nat).
    { assert ((byte + 1) * items <= 256 * items)%nat by (apply Nat.mul_le_mono_r; lia). lia. }
    rewrite (nth_error_nth_eq _ _ []) by (rewrite map_length, seq_length; auto).
    eexists. split; [reflexivity|]. rewrite nth_map_seq by auto.
    rewrite (Nat.add_comm _ i), Nat.div_add, Nat.mod_add, Nat.div_small, Nat.mod_small by lia. cbn [Nat.add].
    rewrite (nth_error_nth_eq _ _ false) by (rewrite map_length, seq_length; auto). f_equal.
    rewrite nth_map_seq by auto.
    replace (2 ^ 2 ^ le - 1)%nat with (Nat.ones (2 ^ le)) by (unfold Nat.ones; rewrite Nat.shiftl_1_l; lia).
    rewrite Nat.land_ones, Nat.shiftr_spec, Nat.add_0_l, Nat.mod_pow2_bits_low by lia.
    rewrite Nat.shiftr_spec by lia. f_equal. lia.
  Qed.

  Lemma left_1b_row_spec le row qv (out : list F) (b : nat -> bool) :
    (le <= 3)%nat -> length out = (8 * length row)%nat ->
    (forall i, (i < length row)%nat -> (nth i row 0 < 256)%nat) ->
    (forall i k, (i < length row)%nat -> (k < 8)%nat -> Nat.testbit (nth i row 0%nat) k = b (8 * i + k)%nat) ->
    left_1b_row le (lookup_masks le) row qv out =
      Some (map (fun x => nth x out 0 + (if b x then qv else 0)) (seq 0 (length out))).
  Proof.
    intros Hle HL HB HT. unfold left_1b_row.
    assert (P8 : (8 / 2 ^ le * 2 ^ le = 8)%nat).
    { change 8%nat with (2 ^ 3)%nat. rewrite <- Nat.pow_sub_r by lia. rewrite <- Nat.pow_add_r. f_equal. lia. }
    set (items := (8 / 2 ^ le)%nat) in *. pose proof (pow2_gt0 le) as W0. set (W := (2 ^ le)%nat) in *.
    assert (I0 : (0 < items)%nat) by (destruct items; lia).
    rewrite (proj2 (Nat.ltb_ge (length out) _)) by (rewrite <- Nat.mul_assoc, P8; lia).
    apply omap_fn. intros x Hx.
    rewrite (nth_error_nth_eq _ x 0) by auto. cbn [obind].
    pose proof (Nat.mod_upper_bound x W ltac:(lia)) as M1.
    pose proof (Nat.mod_upper_bound (x / W) items ltac:(lia)) as M2.
    pose proof (Nat.div_mod x W ltac:(lia)) as D1. pose proof (Nat.div_mod (x / W) items ltac:(lia)) as D2.
    assert (EX : (x = 8 * (x / W / items) + ((x / W) mod items * W + x mod W))%nat).
    { rewrite D1 at 1. rewrite D2 at 1. rewrite <- P8. lia. }
    assert (LT : (x / W / items < length row)%nat).
    { rewrite Nat.div_div by lia. apply Nat.div_lt_upper_bound; [nia|]. rewrite (Nat.mul_comm W), P8. lia. }
    rewrite (proj2 (Nat.ltb_lt _ _) LT). rewrite (nth_error_nth_eq row _ 0%nat) by auto. cbn [obind].
    destruct (lookup_masks_spec le (nth (x / W / items) row 0%nat) ((x / W) mod items) (x mod W)) as [m [Em Nm]]; auto.
    change (8 / 2 ^ le)%nat with items in Em. rewrite Em. cbn [obind]. rewrite Nm. cbn [obind]. do 2 f_equal.
    fold W. rewrite HT by (auto; assert (((x / W) mod items + 1) * W <= items * W)%nat by (apply Nat.mul_le_mono_r; lia); lia).
    now rewrite <- EX.
  Qed.

  (** The value of the left fold: the query combines [2^q] consecutive rows of bits. *)
  Theorem fold_left_1b_correct seq_bytes opt lw le bits n (query : list F) q out :
    (seq_bytes = true -> (3 <= lw)%nat) ->
    length bits = (2 ^ (n - lw) * 2 ^ lw)%nat ->
    (q <= n)%nat -> (2 ^ q <= length query)%nat -> length out = (2 ^ (n - q - le) * 2 ^ le)%nat ->
    exists o, fold_left_1b seq_bytes opt lw le bits n query q out = Ok o /\ length o = length out /\
      (forall i, (i < 2 ^ (n - q))%nat ->
         nth i o 0 = sumn (2 ^ q) (fun t => nth t query 0 * of_bit (nth (t * 2 ^ (n - q) + i) bits false))).
  Proof.
    intros HC HB Hq HQ HO.
    assert (Hbl : (2 ^ n <= length bits)%nat) by (rewrite HB, pow_sub_mul; apply pow2_le; lia).
    assert (Hol : (2 ^ (n - q) <= length out)%nat) by (rewrite HO, pow_sub_mul; apply pow2_le; lia).
    unfold fold_left_1b. rewrite (proj2 (check_fold_ok _ _ _ _ _)) by auto. cbn [negb].
    assert (En : (2 ^ n = 2 ^ q * 2 ^ (n - q))%nat) by (rewrite <- Nat.pow_add_r; f_equal; lia).
    assert (FB : exists o, rs_fold_left false le (map of_bit bits) n query q out = Ok o /\ length o = length out /\
      (forall i, (i < 2 ^ (n - q))%nat ->
         nth i o 0 = sumn (2 ^ q) (fun t => nth t query 0 * of_bit (nth (t * 2 ^ (n - q) + i) bits false)))).
    { destruct (fold_left_spec F false le (map of_bit bits) n query q out (length bits)) as [o [E [L N]]]; auto;
        rewrite ?map_length; try lia.
      exists o. split; auto. split; auto. intros i Hi. rewrite N by auto.
      apply sumn_ext. intros t Ht. f_equal. apply nth_map_lt.
      enough ((t + 1) * 2 ^ (n - q) <= 2 ^ n)%nat by lia. rewrite En. apply Nat.mul_le_mono_r. lia. }
    unfold fold_left_1b_128b.
    destruct (Nat.ltb_spec n lw) as [Lw|Lw]; cbn [orb]; [exact FB|].
    destruct seq_bytes; cbn [negb orb]; [|exact FB]. specialize (HC eq_refl).
    destruct (Nat.ltb_spec (n - q) 3) as [L3|L3]; cbn [orb]; [exact FB|].
    destruct (Nat.ltb_spec 3 le) as [Le|Le]; cbn [orb]; [exact FB|].
    destruct opt; cbn [negb]; [|exact FB]. clear FB.
    assert (EB : length bits = (2 ^ n)%nat) by (rewrite HB, pow_sub_mul; f_equal; lia).
    unfold fold_left_1b_128b_impl. set (R := (2 ^ (n - q - 3))%nat).
    assert (ER : (2 ^ (n - q) = 8 * R)%nat).
    { unfold R. change 8%nat with (2 ^ 3)%nat. rewrite <- Nat.pow_add_r. f_equal. lia. }
    assert (NB : n_bytes bits = (2 ^ q * R)%nat).
    { unfold n_bytes. rewrite EB, En, ER. rewrite (Nat.mul_comm 8), Nat.mul_assoc, Nat.div_mul; lia. }
    pose proof (pow2_gt0 (n - q - 3)) as R0. fold R in R0.
    rewrite NB, div_ceil_mul by auto. rewrite (Nat.min_r (length query)) by lia.
    assert (LO : length out = (8 * R)%nat).
    { rewrite HO, pow_sub_mul, <- ER. f_equal. lia. }
    set (b := fun t x => nth (t * 2 ^ (n - q) + x) bits false).
    assert (G : forall k, (k <= 2 ^ q)%nat -> exists o,
      ofold (fun o t => do qv <- nth_error query t;
               left_1b_row le (lookup_masks le)
               (map (byte_at bits) (seq (t * R) (Nat.min R (2 ^ q * R - t * R)))) qv o)
        (seq 0 k) (repeat 0 (length out)) = Some o /\ length o = length out /\
      forall x, (x < length out)%nat -> nth x o 0 = sumn k (fun t => nth t query 0 * of_bit (b t x))).
    { induction k as [|k IH]; intros Hk.
      - exists (repeat 0 (length out)). split; [reflexivity|]. split; [apply repeat_length|].
        intros x Hx. now apply nth_repeat0.
      - destruct IH as [o [E [L N]]]; [lia|]. rewrite seq_S, ofold_app, E. cbn [obind ofold Nat.add].
        rewrite (nth_error_nth_eq query k 0) by lia. cbn [obind].
        assert (MR : Nat.min R (2 ^ q * R - k * R) = R).
        { assert ((k + 1) * R <= 2 ^ q * R)%nat by (apply Nat.mul_le_mono_r; lia). lia. }
        rewrite MR.
        assert (NR : forall i, (i < R)%nat -> nth i (map (byte_at bits) (seq (k * R) R)) 0%nat = byte_at bits (k * R + i)).
        { intros i Hi. rewrite (nth_map_lt _ _ _ _ 0%nat) by (rewrite seq_length; auto). now rewrite seq_nth. }
        rewrite (left_1b_row_spec le _ _ o (b k)); auto.
        + cbn [obind]. eexists. split; [reflexivity|]. split; [now rewrite map_length, seq_length|].
          intros x Hx. rewrite nth_map_seq by lia. rewrite N, sumn_S by auto. f_equal.
          unfold of_bit. destruct (b k x); ring.
        + rewrite map_length, seq_length. lia.
        + rewrite map_length, seq_length. intros i Hi. rewrite NR by auto. apply byte_at_lt.
        + rewrite map_length, seq_length. intros i j Hi Hj. rewrite NR by auto. rewrite byte_at_testbit by auto.
          unfold b. f_equal. rewrite ER. lia. }
    destruct (G (2 ^ q)%nat (le_n _)) as [o [E [L N]]]. rewrite E. cbn [obind].
    exists o. split; auto. split; auto. intros i Hi. apply N. lia.
  Qed.
End F1.

(** Both specialised paths are taken by concrete arguments. *)
Definition bits16 : list bool :=
  [true; false; true; true; false; false; true; false; true; true; true; false; false; true; false; true].

Definition path {A} (o : option (option A)) : bool := match o with Some (Some _) => true | _ => false end.

Example fold_right_1b_small_ex :
  path (fold_right_1bit_small (F:=X16) 3 4 1 bits16 (els [3; 5]%N) (els [0; 0; 0; 0; 0; 0; 0; 0]%N)) = true /\
  shown (fold_right_1b true 3 4 bits16 4 (els [3; 5]%N) 1 (els [0; 0; 0; 0; 0; 0; 0; 0; 7; 7; 7; 7; 7; 7; 7; 7]%N))
    = Ok [3; 6; 0; 3; 6; 3; 5; 5; 7; 7; 7; 7; 7; 7; 7; 7]%N.
Proof. split; vm_compute; reflexivity. Qed.

Example fold_right_1b_medium_ex :
  path (fold_right_1bit_medium (F:=X16) 3 bits16 (els [1; 2; 3; 4; 5; 6; 7; 8]%N) (els [0; 0]%N)) = true /\
  shown (fold_right_1b true 3 0 bits16 4 (els [1; 2; 3; 4; 5; 6; 7; 8]%N) 3 (els [0; 0]%N)) = Ok [1; 14]%N.
Proof. split; vm_compute; reflexivity. Qed.

Example fold_left_1b_ex :
  path (fold_left_1b_128b (F:=X16) true true 3 1 bits16 4 (els [3; 5]%N) 1 (els [0; 0; 0; 0; 0; 0; 0; 0]%N)) = true /\
  shown (fold_left_1b true true 3 1 bits16 4 (els [3; 5]%N) 1 (els [0; 0; 0; 0; 0; 0; 0; 0]%N))
    = Ok [6; 5; 6; 3; 0; 5; 3; 5]%N.
Proof. split; vm_compute; reflexivity. Qed.

(** The argument checks accept a table longer than [2^log_evals_size]; the specialised fold then goes
    over all of it and writes past the end of the output, while the generic fold succeeds. *)
Theorem fold_right_1b_long_table_refuted :
  exists bits (query out : list X16),
    check_fold_arguments 3 3 (length bits) (length query) (length out) = true /\
    fold_right_1b true 3 0 bits 3 query 3 out = Panic /\
    shown (rs_fold_right 0 (map of_bit bits) 3 query 3 out) = Ok [1]%N.
Proof.
  exists bits16, (els [1; 2; 3; 4; 5; 6; 7; 8]%N), (els [0]%N).
  split; [reflexivity|]. split; [reflexivity|]. vm_compute. reflexivity.
Qed.
