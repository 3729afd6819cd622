(** Properties of slices of packed elements: C11 (square transpose), C56 (packed slices). *)
Require Import Coq.Arith.Arith Coq.NArith.NArith Coq.Lists.List Coq.Bool.Bool Lia.
Require Import Verif.Base.Lists Verif.Base.Bits Verif.Field.TowerModel
  Verif.Field.TowerProofs Verif.Field.TowerBases Verif.Field.TowerProps
  Verif.Field.PackedModel Verif.Field.PackedProofs Verif.Field.PackedProps Verif.Field.SliceModel.
Import ListNotations.

(** * C11 *)

Lemma pow2_pos n : 2 ^ n <> 0.
Proof. apply Nat.pow_nonzero. lia. Qed.

Lemma transpose_pairs_spec log_n log_w i p : i < log_n ->
  In p (transpose_pairs log_n log_w i) <->
  exists j k, j < 2 ^ (log_n - i - 1) /\ k < 2 ^ (log_w + i) /\
    p = (2 * j * 2 ^ (log_w + i) + k, (2 * j + 1) * 2 ^ (log_w + i) + k).
Proof.
  intros Hi. unfold transpose_pairs. rewrite in_map_iff.
  assert (V : forall j k, k < 2 ^ (log_w + i) ->
     (let idx0 := Nat.lor (Nat.shiftl j (log_w + i + 1)) k in
      (idx0, Nat.lor idx0 (Nat.shiftl 1 (log_w + i)))) =
     (2 * j * 2 ^ (log_w + i) + k, (2 * j + 1) * 2 ^ (log_w + i) + k)).
  { intros j k Hk. cbv zeta. set (s := log_w + i) in *.
    assert (E : Nat.shiftl j (s + 1) = Nat.shiftl (2 * j) s).
    { rewrite !Nat.shiftl_mul_pow2, Nat.pow_add_r. cbn [Nat.pow]. lia. }
    rewrite E, lor_shl by auto. f_equal.
    rewrite Nat.lor_comm, <- (lor_shl (2 * j) s k), Nat.lor_assoc by auto.
    replace (Nat.lor (Nat.shiftl 1 s) (Nat.shiftl (2 * j) s)) with (Nat.shiftl (2 * j + 1) s).
    - now apply lor_shl.
    - rewrite <- Nat.shiftl_lor. f_equal.
      assert (E2 : 2 * j = Nat.shiftl j 1) by (rewrite Nat.shiftl_mul_pow2; change (2 ^ 1) with 2; lia).
      rewrite Nat.lor_comm, E2, lor_shl by (cbn; lia). rewrite <- E2. change (2 ^ 1) with 2. lia. }
  split.
  - intros [[j k] [E H]]. apply in_prod_iff in H. destruct H as [Hj Hk]. apply in_seq in Hj, Hk.
    exists j, k. split; [lia|]. split; [lia|]. rewrite <- E. apply V. lia.
  - intros [j [k [Hj [Hk E]]]]. exists (j, k). split; [rewrite E; apply V; auto|].
    apply in_prod_iff. split; apply in_seq; lia.
Qed.

Lemma transpose_pairs_nodup log_n log_w i : i < log_n -> NoDup (transpose_pairs log_n log_w i).
Proof.
  intros Hi. unfold transpose_pairs. apply NoDup_map_in.
  - apply NoDup_list_prod; apply seq_NoDup.
  - intros [j k] [j' k'] H H' E.
    apply in_prod_iff in H, H'. destruct H as [Hj Hk], H' as [Hj' Hk']. apply in_seq in Hj, Hk, Hj', Hk'.
    apply (f_equal fst) in E. cbn [fst] in E.
    assert (P : 2 ^ (log_w + i + 1) = 2 * 2 ^ (log_w + i)) by (rewrite Nat.pow_add_r; cbn; lia).
    rewrite !lor_shl in E by lia. rewrite P in E.
    assert (j = j') by nia. subst. f_equal. nia.
Qed.

(** One phase exchanges bit [log_w + i] of the element index with bit [i] of the lane index. *)
Lemma transpose_phase w k log_n log_w i l : k <= w -> i < log_n -> log_n <= w - k ->
  length l = 2 ^ (log_n + log_w) -> Forall (inr w) l ->
  exists l', ofold (pair_step (fun _ _ v0 v1 => p_interleave w k v0 v1 i)) (transpose_pairs log_n log_w i) l = Some l' /\
    length l' = length l /\ Forall (inr w) l' /\
    forall j q bq, j < 2 ^ (log_n - i - 1) -> q < 2 ^ (log_w + i) -> (bq < 2)%nat ->
    forall t r bt, t < 2 ^ (w - k - i - 1) -> r < 2 ^ i -> (bt < 2)%nat ->
      lane k (nth ((2 * j + bq) * 2 ^ (log_w + i) + q) l' 0%N) ((2 * t + bt) * 2 ^ i + r) =
      lane k (nth ((2 * j + bt) * 2 ^ (log_w + i) + q) l 0%N) ((2 * t + bq) * 2 ^ i + r).
Proof.
  intros Hk Hi Hn HL HI. set (s := log_w + i).
  assert (PS : 2 ^ (log_n + log_w) = 2 * 2 ^ (log_n - i - 1) * 2 ^ s).
  { unfold s. change 2 with (2 ^ 1) at 2. rewrite <- !Nat.pow_add_r. f_equal. lia. }
  assert (P0 := pow2_pos s).
  assert (HInn : forall m x, nth_error l m = Some x -> inr w x).
  { intros m x Hx. eapply Forall_forall; [exact HI|]. eapply nth_error_In; eauto. }
  assert (HF : forall v0 v1, inr w v0 -> inr w v1 -> exists r, p_interleave w k v0 v1 i = Some r).
  { intros v0 v1 H0 H1. destruct (packed_interleave w k v0 v1 i Hk H0 H1) as [HN _].
    destruct (p_interleave w k v0 v1 i) as [r|]; [now exists r|]. exfalso.
    pose proof (proj1 HN eq_refl). lia. }
  destruct (pairs_fold (fun _ _ v0 v1 => p_interleave w k v0 v1 i) (transpose_pairs log_n log_w i) l)
    as [l' [E [L' [HP HO]]]].
  - now apply transpose_pairs_nodup.
  - intros p Hp. apply transpose_pairs_spec in Hp; auto. destruct Hp as [j [q [Hj [Hq ->]]]].
    cbn [fst snd]. fold s in Hq |- *. rewrite HL, PS. split; [|split]; nia.
  - intros p p' Hp Hp' Hne. apply transpose_pairs_spec in Hp, Hp'; auto.
    destruct Hp as [j [q [Hj [Hq ->]]]]. destruct Hp' as [j' [q' [Hj' [Hq' ->]]]].
    fold s in Hq, Hq', Hne |- *. cbn [fst snd].
    assert (D : j <> j' \/ q <> q').
    { destruct (Nat.eq_dec j j'); [right|now left]. intros ->. subst. now apply Hne. }
    assert (U : forall a b x y, x < 2 ^ s -> y < 2 ^ s -> a * 2 ^ s + x = b * 2 ^ s + y -> a = b /\ x = y).
    { clear. intros a b x y Hx Hy H0. assert (a = b) by nia. subst. lia. }
    repeat split; intros X; apply U in X; auto; lia.
  - intros p x y Hp Hx Hy. apply HF; eauto.
  - exists l'. split; auto. split; auto.
    assert (HL2 : length l' = 2 * 2 ^ (log_n - i - 1) * 2 ^ s) by (rewrite L', HL; exact PS).
    assert (X : forall j q, j < 2 ^ (log_n - i - 1) -> q < 2 ^ s ->
      inr w (nth (2 * j * 2 ^ s + q) l' 0%N) /\ inr w (nth ((2 * j + 1) * 2 ^ s + q) l' 0%N) /\
      forall t r, t < 2 ^ (w - k - i - 1) -> r < 2 ^ i ->
       let a := nth (2 * j * 2 ^ s + q) l 0%N in let b := nth ((2 * j + 1) * 2 ^ s + q) l 0%N in
       let c := nth (2 * j * 2 ^ s + q) l' 0%N in let d := nth ((2 * j + 1) * 2 ^ s + q) l' 0%N in
       let even := (2 * t * 2 ^ i + r)%nat in let odd := ((2 * t + 1) * 2 ^ i + r)%nat in
       lane k c even = lane k a even /\ lane k c odd = lane k b even /\
       lane k d even = lane k a odd /\ lane k d odd = lane k b odd).
    { intros j q Hj Hq.
      set (p := (2 * j * 2 ^ s + q, (2 * j + 1) * 2 ^ s + q)).
      assert (Hp : In p (transpose_pairs log_n log_w i)).
      { apply transpose_pairs_spec; auto. exists j, q. auto. }
      destruct (nth_error_ex l (fst p)) as [x Ex]; [cbn [fst p]; rewrite HL, PS; nia|].
      destruct (nth_error_ex l (snd p)) as [y Ey]; [cbn [snd p]; rewrite HL, PS; nia|].
      destruct (HP p x y Hp Ex Ey) as [x' [y' [Ef [Ex' Ey']]]].
      destruct (packed_interleave w k x y i Hk) as [_ HI2]; eauto.
      destruct (HI2 x' y' Ef) as [Ix [Iy HLn]].
      cbn [fst snd p] in Ex, Ey, Ex', Ey'.
      apply (nth_error_nth _ _ 0%N) in Ex, Ey, Ex', Ey'.
      rewrite Ex', Ey', Ex, Ey. split; auto. }
    split.
    { apply Forall_nth. intros m d Hm. rewrite (nth_indep _ _ 0%N) by auto.
      pose proof (Nat.div_mod m (2 ^ s) P0) as D. pose proof (Nat.mod_upper_bound m (2 ^ s) P0) as B.
      set (u := m / 2 ^ s) in *. set (v := m mod 2 ^ s) in *.
      assert (Hu : u < 2 * 2 ^ (log_n - i - 1)) by nia.
      destruct (parity u) as [j [Ej|Ej]].
      - destruct (X j v) as [X1 _]; [lia|auto|]. replace m with (2 * j * 2 ^ s + v) by (rewrite D, Ej; lia). auto.
      - destruct (X j v) as [_ [X1 _]]; [lia|auto|].
        replace m with ((2 * j + 1) * 2 ^ s + v) by (rewrite D, Ej; lia). auto. }
    intros j q bq Hj Hq Hbq t r bt Ht Hr Hbt.
    destruct (X j q Hj Hq) as [_ [_ Y]]. specialize (Y t r Ht Hr). cbv zeta in Y.
    destruct Y as [Y1 [Y2 [Y3 Y4]]].
    destruct bq as [|[|]], bt as [|[|]]; try lia; rewrite ?Nat.add_0_r; auto.
Qed.

(** square_transpose on 2^(log_n + log_w) packed elements transposes every square block: row r of
    the n x n blocks is spread over the elements r * 2^log_w + q. *)
Theorem square_transpose_spec w k log_n log_w elems : k <= w -> log_n <= w - k ->
  length elems = 2 ^ (log_n + log_w) -> Forall (inr w) elems ->
  exists out, square_transpose w k log_n elems = TransposeOk out /\
    length out = length elems /\ Forall (inr w) out /\
    forall r c q t, r < 2 ^ log_n -> c < 2 ^ log_n -> q < 2 ^ log_w -> t < 2 ^ (w - k - log_n) ->
      lane k (nth (r * 2 ^ log_w + q) out 0%N) (t * 2 ^ log_n + c) =
      lane k (nth (c * 2 ^ log_w + q) elems 0%N) (t * 2 ^ log_n + r).
Proof.
  intros Hk Hn HL HI. unfold square_transpose. cbv zeta.
  rewrite HL, Nat.log2_pow2, Nat.eqb_refl by lia. cbn [negb].
  rewrite (proj2 (Nat.ltb_ge _ _) Hn), (proj2 (Nat.ltb_ge (log_n + log_w) log_n)) by lia.
  replace (log_n + log_w - log_n) with log_w by lia.
  destruct (ofold_inv (fun l i => ofold (pair_step (fun _ _ v0 v1 => p_interleave w k v0 v1 i))
                (transpose_pairs log_n log_w i) l)
     (fun i l => length l = 2 ^ (log_n + log_w) /\ Forall (inr w) l /\
        (i <= log_n -> forall R r c q T, R < 2 ^ (log_n - i) -> r < 2 ^ i -> c < 2 ^ i -> q < 2 ^ log_w ->
         T < 2 ^ (w - k - i) ->
         lane k (nth ((R * 2 ^ i + r) * 2 ^ log_w + q) l 0%N) (T * 2 ^ i + c) =
         lane k (nth ((R * 2 ^ i + c) * 2 ^ log_w + q) elems 0%N) (T * 2 ^ i + r)))
     (seq 0 log_n) elems 0) as [l' [E [L' [I' H']]]].
  - split; auto. split; auto. cbn [Nat.pow]. intros _ R r c q T HR Hr Hc Hq HT.
    assert (r = 0) by lia. assert (c = 0) by lia. now subst.
  - intros i b l Hb [Ll [Il H]]. rewrite nth_error_seq in Hb.
    destruct (Nat.ltb_spec i log_n) as [Hi|]; [|discriminate]. inversion Hb; subst b. clear Hb.
    cbn [Nat.add] in *.
    destruct (transpose_phase w k log_n log_w i l) as [l2 [E2 [L2 [I2 H2]]]]; auto.
    exists l2. split; auto. split; [lia|]. split; auto.
    intros HSi R r c q T HR Hr Hc Hq HT.
    assert (P2 : 2 ^ S i = 2 * 2 ^ i) by reflexivity. assert (P0 := pow2_pos i).
    assert (SP : forall x, x < 2 ^ S i -> exists b x', b < 2 /\ x' < 2 ^ i /\ x = b * 2 ^ i + x').
    { intros x Hx. exists (x / 2 ^ i), (x mod 2 ^ i). pose proof (Nat.div_mod x (2 ^ i) P0).
      pose proof (Nat.mod_upper_bound x (2 ^ i) P0). repeat split; auto; [|lia].
      apply Nat.div_lt_upper_bound; auto. lia. }
    destruct (SP r Hr) as [br [r' [Hbr [Hr' ->]]]]. destruct (SP c Hc) as [bc [c' [Hbc [Hc' ->]]]].
    assert (PN : 2 ^ (log_n - i) = 2 * 2 ^ (log_n - S i)).
    { replace (log_n - i) with (S (log_n - S i)) by lia. reflexivity. }
    assert (PT : 2 ^ (w - k - i) = 2 * 2 ^ (w - k - S i)).
    { replace (w - k - i) with (S (w - k - S i)) by lia. reflexivity. }
    assert (PW : 2 ^ (log_w + i) = 2 ^ i * 2 ^ log_w) by (rewrite Nat.pow_add_r; lia).
    replace ((R * 2 ^ S i + (br * 2 ^ i + r')) * 2 ^ log_w + q)
      with ((2 * R + br) * 2 ^ (log_w + i) + (r' * 2 ^ log_w + q)) by (rewrite P2, PW; ring).
    replace (T * 2 ^ S i + (bc * 2 ^ i + c')) with ((2 * T + bc) * 2 ^ i + c') by (rewrite P2; ring).
    rewrite H2; auto.
    + replace ((2 * R + bc) * 2 ^ (log_w + i) + (r' * 2 ^ log_w + q))
        with (((2 * R + bc) * 2 ^ i + r') * 2 ^ log_w + q) by (rewrite PW; ring).
      rewrite H by (auto; lia). f_equal; [f_equal|]; rewrite P2; ring.
    + replace (log_n - i - 1) with (log_n - S i) by lia. auto.
    + rewrite PW. nia.
    + replace (w - k - i - 1) with (w - k - S i) by lia. auto.
  - rewrite seq_length in *. cbn [Nat.add] in *. rewrite E. exists l'. split; auto. split; [lia|]. split; auto.
    intros r c q t Hr Hc Hq Ht. specialize (H' (le_n _) 0 r c q t). cbn [Nat.mul Nat.add] in H'.
    apply H'; auto. rewrite Nat.sub_diag. cbn. lia.
Qed.

(** It fails exactly when the block does not fit the packing width, the number of elements is not
    a power of two, or there are fewer than 2^log_n of them; then nothing else happens. *)
Theorem square_transpose_errors w k log_n elems : k <= w -> Forall (inr w) elems ->
  (square_transpose w k log_n elems = TransposeErr SquareBlockDimensionMustDivideWidth <-> w - k < log_n) /\
  (square_transpose w k log_n elems = TransposeErr InvalidBufferSize <->
     log_n <= w - k /\ ~ exists m, log_n <= m /\ length elems = 2 ^ m).
Proof.
  intros Hk HI.
  destruct (Nat.le_gt_cases log_n (w - k)) as [Hn|Hn].
  - destruct (Nat.eq_dec (length elems) (2 ^ Nat.log2 (length elems))) as [Ep|Ep].
    + destruct (Nat.le_gt_cases log_n (Nat.log2 (length elems))) as [Hs|Hs].
      * destruct (square_transpose_spec w k log_n (Nat.log2 (length elems) - log_n) elems) as [o [E _]]; auto.
        { rewrite Ep at 1. f_equal. lia. }
        rewrite E. split; (split; [discriminate|]); [lia|]. intros [_ X]. exfalso. apply X. eauto.
      * unfold square_transpose. cbv zeta. rewrite (proj2 (Nat.ltb_ge _ _) Hn), <- Ep, Nat.eqb_refl.
        cbn [negb]. rewrite (proj2 (Nat.ltb_lt _ _) Hs). split; (split; [try discriminate|]); try lia; auto.
        intros _. split; auto. intros [m [Hm Em]]. rewrite Em, Nat.log2_pow2 in Hs; lia.
    + unfold square_transpose. cbv zeta. rewrite (proj2 (Nat.ltb_ge _ _) Hn), (proj2 (Nat.eqb_neq _ _) Ep).
      cbn [negb]. split; (split; [try discriminate|]); try lia; auto.
      intros _. split; auto. intros [m [Hm Em]]. apply Ep. rewrite Em, Nat.log2_pow2; auto; lia.
  - unfold square_transpose. cbv zeta. rewrite (proj2 (Nat.ltb_lt _ _) Hn).
    split; (split; [try discriminate|]); auto; try lia.
Qed.

Example square_transpose_ex :
  square_transpose 5 2 3 [0x76543210; 0x11111111; 0x22222222; 0x33333333;
                          0xfedcba98; 0x55555555; 0x66666666; 0x77777777]%N =
  TransposeOk [0x76583210; 0x76593211; 0x765a3212; 0x765b3213;
               0x765c3214; 0x765d3215; 0x765e3216; 0x765f3217]%N /\
  square_transpose 5 2 4 [0; 0]%N = TransposeErr SquareBlockDimensionMustDivideWidth /\
  square_transpose 5 2 1 [0; 0; 0]%N = TransposeErr InvalidBufferSize.
Proof. vm_compute. auto. Qed.

(** * C56: scalars of a slice of packed elements *)

Section Slices.
  Variables w k : nat.
  Hypothesis Hk : k <= w.
  Let W := 2 ^ (w - k).

  Lemma W_pos : W <> 0.
  Proof. apply pow2_pos. Qed.

  Lemma slice_idx (p : list N) i : i < length p * W -> i / W < length p.
  Proof. intros. apply Nat.div_lt_upper_bound; [apply W_pos|lia]. Qed.

  (** Reading after writing; both fail exactly beyond the end. *)
  Theorem packed_slice_get_set p i s : Forall (inr w) p -> inr k s ->
    (i < len_packed_slice w k p ->
      exists p', set_packed_slice w k p i s = Some p' /\ length p' = length p /\ Forall (inr w) p' /\
        forall m, get_packed_slice w k p' m = if m =? i then Some s else get_packed_slice w k p m) /\
    (len_packed_slice w k p <= i -> get_packed_slice w k p i = None /\ set_packed_slice w k p i s = None).
  Proof.
    intros Hp Hs. unfold len_packed_slice, get_packed_slice, set_packed_slice. fold W.
    pose proof W_pos as W0. split; intros Hi.
    - destruct (nth_error_ex p (i / W)) as [v Ev]; [apply slice_idx; auto|]. rewrite Ev.
      assert (Iv : inr w v) by (eapply Forall_forall; [exact Hp|eapply nth_error_In; eauto]).
      destruct (set_lane_spec w k v (i mod W) s) as [I L]; auto; [now apply Nat.mod_upper_bound|].
      eexists; split; eauto. rewrite upd_length. split; auto. split.
      + apply Forall_forall. intros x Hx. apply In_nth_error in Hx. destruct Hx as [m Hm].
        rewrite nth_error_upd in Hm. destruct (m =? i / W).
        * destruct (_ <? _) in Hm; inversion Hm; now subst.
        * eapply Forall_forall; [exact Hp|eapply nth_error_In; eauto].
      + intros m. pose proof (nth_error_lt _ _ _ Ev) as Hlt. rewrite nth_error_upd.
        destruct (Nat.eqb_spec (m / W) (i / W)) as [Eq|Ne].
        * rewrite (proj2 (Nat.ltb_lt _ _) Hlt), L by (now apply Nat.mod_upper_bound).
          rewrite Eq, Ev. destruct (Nat.eqb_spec (m mod W) (i mod W)) as [Em|Em].
          -- rewrite (proj2 (Nat.eqb_eq m i)); auto.
             rewrite (Nat.div_mod m W W0), (Nat.div_mod i W W0), Eq, Em. reflexivity.
          -- destruct (Nat.eqb_spec m i); [subst; now contradiction Em|reflexivity].
        * destruct (Nat.eqb_spec m i); [subst; now contradiction Ne|reflexivity].
    - replace (nth_error p (i / W)) with (@None N); auto.
      symmetry. apply nth_error_None. apply Nat.div_le_lower_bound; auto. lia.
  Qed.

  Lemma chunks_fuel_nth {A} n (l : list A) : n <> 0 -> forall f, length l <= f ->
    (length (chunks_fuel f n l) = (length l + n - 1) / n) /\
    forall j, j < (length l + n - 1) / n -> nth_error (chunks_fuel f n l) j = Some (firstn n (skipn (j * n) l)).
  Proof.
    intros Hn f. revert l. induction f; intros l Hf.
    - destruct l; [|cbn in Hf; lia]. cbn [chunks_fuel length]. split.
      + symmetry. apply Nat.div_small. lia.
      + intros j Hj. rewrite Nat.div_small in Hj by lia. lia.
    - destruct l as [|x l].
      + cbn [chunks_fuel length]. split.
        * symmetry. apply Nat.div_small. lia.
        * intros j Hj. rewrite Nat.div_small in Hj by lia. lia.
      + cbn [chunks_fuel]. set (l' := x :: l) in *.
        assert (Hl' : length l' = S (length l)) by reflexivity.
        destruct (IHf (skipn n l')) as [IL IN]; [rewrite skipn_length; lia|].
        rewrite skipn_length in *.
        assert (Ec : (length l' + n - 1) / n = S ((length l' - n + n - 1) / n)).
        { destruct (Nat.le_gt_cases n (length l')).
          - replace (length l' + n - 1) with (length l' - n + n - 1 + 1 * n) by lia.
            rewrite Nat.div_add by auto. lia.
          - replace (length l' - n + n - 1) with (n - 1) by lia. rewrite (Nat.div_small (n - 1)) by lia.
            replace (length l' + n - 1) with (length l' - 1 + 1 * n) by lia.
            rewrite Nat.div_add by auto. rewrite Nat.div_small by lia. reflexivity. }
        split; [cbn [length]; lia|].
        intros [|j] Hj; cbn [nth_error]; [reflexivity|].
        rewrite IN by lia. do 2 f_equal. rewrite skipn_add. f_equal.
  Qed.

  Lemma nth_firstn_skipn {A} n m (l : list A) r d : r < n -> nth r (firstn n (skipn m l)) d = nth (m + r) l d.
  Proof.
    intros Hr. revert l. induction m; intros l; cbn [skipn Nat.add].
    - revert r Hr l. induction n; intros r Hr l; [lia|]. destruct l; [now rewrite firstn_nil; destruct r|].
      destruct r; cbn; auto. apply IHn. lia.
    - destruct l; [|apply IHm]. rewrite firstn_nil. now destruct r.
  Qed.

  (** pack_slice: scalar i of the result is scalar i of the input, the padding is zero. *)
  Theorem pack_slice_spec scalars : Forall (inr k) scalars ->
    length (pack_slice w k scalars) = (length scalars + W - 1) / W /\
    forall i, i < len_packed_slice w k (pack_slice w k scalars) ->
      get_packed_slice w k (pack_slice w k scalars) i = Some (nth i scalars 0%N).
  Proof.
    intros Hs. pose proof W_pos as W0. unfold pack_slice, chunks. fold W.
    destruct (chunks_fuel_nth W scalars W0 (length scalars) (le_n _)) as [L N1].
    rewrite map_length. split; auto. intros i Hi. unfold len_packed_slice, get_packed_slice in *.
    rewrite map_length, L in Hi. fold W in Hi |- *.
    assert (Hq : i / W < (length scalars + W - 1) / W) by (apply Nat.div_lt_upper_bound; lia).
    rewrite nth_error_map, N1 by auto. cbn [option_map].
    destruct (packed_from_scalars w k (firstn W (skipn (i / W * W) scalars))) as [_ F]; auto.
    { apply Forall_forall. intros x Hx. eapply Forall_forall; [exact Hs|].
      assert (Hin : In x (skipn (i / W * W) scalars)).
      { rewrite <- (firstn_skipn W). apply in_or_app. now left. }
      rewrite <- (firstn_skipn (i / W * W)). apply in_or_app. now right. }
    rewrite F by (fold W; now apply Nat.mod_upper_bound).
    rewrite nth_firstn_skipn by (now apply Nat.mod_upper_bound). do 2 f_equal.
    rewrite (Nat.div_mod i W W0) at 3. lia.
  Qed.

  Lemma zip_write_nth {A B} (f : A -> B) src : forall dst i, length src <= length dst ->
    nth_error (zip_write f src dst) i =
    match nth_error src i with Some a => Some (f a) | None => nth_error dst i end.
  Proof.
    induction src; intros dst i H; cbn [zip_write]; [now destruct i, dst|].
    destruct dst; [cbn in H; lia|]. destruct i; cbn; auto. apply IHsrc. cbn in H; lia.
  Qed.
  Lemma zip_write_length {A B} (f : A -> B) src : forall dst, length (zip_write f src dst) = length dst.
  Proof. induction src; intros [|b dst]; cbn; auto. Qed.

  (** copy_packed_from_scalars_slice is right when the number of scalars is a multiple of the
      width: scalar i of the destination becomes src\[i\], the rest is unchanged. *)
  Theorem copy_packed_from_scalars_slice_partial src dst : Forall (inr k) src ->
    length src mod W = 0 -> length src <= len_packed_slice w k dst ->
    exists dst', copy_packed_from_scalars_slice w k src dst = Some dst' /\ length dst' = length dst /\
      forall i, get_packed_slice w k dst' i =
        if i <? length src then Some (nth i src 0%N) else get_packed_slice w k dst i.
  Proof.
    intros Hs Hm Hl. pose proof W_pos as W0. unfold len_packed_slice in Hl. fold W in Hl.
    assert (E : length src / W * W = length src).
    { pose proof (Nat.div_mod (length src) W W0). lia. }
    unfold copy_packed_from_scalars_slice. fold W. cbv zeta. unfold remainder, chunks_exact.
    rewrite E, skipn_all, firstn_all. unfold chunks.
    eexists; split; [reflexivity|]. rewrite zip_write_length. split; auto.
    destruct (chunks_fuel_nth W src W0 (length src) (le_n _)) as [L N1].
    assert (Ec : (length src + W - 1) / W = length src / W).
    { replace (length src + W - 1) with (W - 1 + length src / W * W) by lia.
      rewrite Nat.div_add, Nat.div_small by lia. reflexivity. }
    rewrite Ec in L, N1.
    intros i. unfold get_packed_slice. fold W. rewrite zip_write_nth by (rewrite L; nia).
    destruct (Nat.ltb_spec i (length src)) as [Hi|Hi].
    - assert (Hq : i / W < length src / W) by (apply Nat.div_lt_upper_bound; lia).
      rewrite N1 by auto.
      destruct (packed_from_scalars w k (firstn W (skipn (i / W * W) src))) as [_ F]; auto.
      { apply Forall_forall. intros x Hx. eapply Forall_forall; [exact Hs|].
        assert (Hin : In x (skipn (i / W * W) src)).
        { rewrite <- (firstn_skipn W). apply in_or_app. now left. }
        rewrite <- (firstn_skipn (i / W * W)). apply in_or_app. now right. }
      rewrite F by (fold W; now apply Nat.mod_upper_bound).
      rewrite nth_firstn_skipn by (now apply Nat.mod_upper_bound). do 2 f_equal.
      rewrite (Nat.div_mod i W W0) at 3. lia.
    - replace (nth_error (chunks_fuel (length src) W src) (i / W)) with (@None (list N)); auto.
      symmetry. apply nth_error_None. rewrite L. apply Nat.div_le_mono; auto.
  Qed.

  (** Iterating from a scalar offset yields the scalars offset, offset + 1, ... *)
  Theorem iter_packed_slice_with_offset_spec p offset :
    length (iter_packed_slice_with_offset w k p offset) = len_packed_slice w k p - offset /\
    forall i, i < len_packed_slice w k p - offset ->
      nth_error (iter_packed_slice_with_offset w k p offset) i = get_packed_slice w k p (offset + i).
  Proof.
    pose proof W_pos as W0. unfold iter_packed_slice_with_offset, len_packed_slice, get_packed_slice. fold W.
    assert (F : forall q : list N, length (flat_map (fun v => map (lane k v) (seq 0 W)) q) = length q * W /\
      forall i, nth_error (flat_map (fun v => map (lane k v) (seq 0 W)) q) i =
        match nth_error q (i / W) with Some v => Some (lane k v (i mod W)) | None => None end).
    { induction q as [|v q [IL IN]]; cbn [flat_map length].
      - split; auto. intros i. destruct (i / W), i; reflexivity.
      - rewrite app_length, map_length, seq_length, IL. split; [lia|]. intros i.
        destruct (Nat.lt_ge_cases i W) as [Hi|Hi].
        + rewrite nth_error_app1 by (rewrite map_length, seq_length; auto).
          rewrite nth_error_map, nth_error_seq, (proj2 (Nat.ltb_lt _ _) Hi), Nat.div_small, Nat.mod_small by auto.
          reflexivity.
        + rewrite nth_error_app2 by (rewrite map_length, seq_length; auto).
          rewrite map_length, seq_length, IN.
          assert (Ei : i = i - W + 1 * W) by lia.
          assert (E1 : i / W = S ((i - W) / W)) by (rewrite Ei at 1; rewrite Nat.div_add by auto; lia).
          assert (E2 : i mod W = (i - W) mod W) by (rewrite Ei at 1; now rewrite Nat.mod_add by auto).
          now rewrite E1, E2. }
    destruct (Nat.ltb_spec offset (length p * W)) as [Ho|Ho].
    - destruct (F (skipn (offset / W) p)) as [FL FN].
      pose proof (Nat.div_mod offset W W0) as D. pose proof (Nat.mod_upper_bound offset W W0).
      rewrite skipn_length, FL, skipn_length. split; [rewrite Nat.mul_sub_distr_r; nia|].
      intros i Hi. rewrite nth_error_skipn, FN, nth_error_skipn.
      replace (offset + i) with (offset mod W + i + offset / W * W) by lia.
      rewrite Nat.div_add, Nat.mod_add, Nat.add_comm by auto. reflexivity.
    - cbn [flat_map skipn length]. split; [lia|]. intros i Hi. lia.
  Qed.
End Slices.

(** The remainder is written to the wrong place: 129 one-bit scalars do not fit "beside" the first
    packed element and the call panics although the destination holds 256 scalars; with a larger
    destination the last scalar lands at scalar index 128 * 128. *)
Theorem copy_packed_from_scalars_slice_refuted :
  exists src dst, Forall (inr 0) src /\ length src <= len_packed_slice 7 0 dst /\
    copy_packed_from_scalars_slice 7 0 src dst = None.
Proof.
  exists (repeat 1%N 129), [0%N; 0%N].
  split; [apply Forall_forall; intros x Hx; apply repeat_spec in Hx; subst; vm_compute; reflexivity|].
  split; [vm_compute; lia|]. vm_compute. reflexivity.
Qed.
Theorem copy_packed_from_scalars_slice_wrong_place_refuted :
  exists src dst dst', Forall (inr 2) src /\ length src <= len_packed_slice 3 2 dst /\
    copy_packed_from_scalars_slice 3 2 src dst = Some dst' /\
    get_packed_slice 3 2 dst' 2 <> Some (nth 2 src 0%N) /\ get_packed_slice 3 2 dst' 4 <> get_packed_slice 3 2 dst 4.
Proof.
  exists [1; 2; 3]%N, [0; 0; 0]%N. eexists.
  split; [repeat constructor|]. split; [vm_compute; lia|]. split; [vm_compute; reflexivity|].
  vm_compute. split; discriminate.
Qed.

(** mul_by_subfield_scalar: every scalar is multiplied by the embedded subfield element, in both
    branches. *)
Theorem mul_by_subfield_scalar_spec w d j pmulj val m : d + j <= w ->
  lanewise2 w j pmulj (tmul j) -> inr w val -> inr j m ->
  lanewise1 w (d + j) (fun v => mul_by_subfield_scalar w d j pmulj v m) (fun s => tmul (d + j) s (tembed m)).
Proof.
  intros Hw Hm _ Im a Ha. unfold mul_by_subfield_scalar, tembed.
  destruct (_ || _)%bool.
  - destruct (from_fn_spec w (d + j) (fun i => tmul_sub d j (lane (d + j) a i) m)) as [I L]; auto.
    { intros i. rewrite tmul_sub_spec by auto using lane_inr. apply tmul_inr; auto using lane_inr.
      apply (inr_le j); auto; lia. }
    split; auto. intros i Hi. rewrite L by auto. apply tmul_sub_spec; auto using lane_inr.
  - destruct (broadcast_spec w j m) as [Ib Lb]; auto; [lia|].
    destruct (Hm a (broadcast w j m) Ha Ib) as [I L]. split; auto. intros i Hi.
    apply (blocks_inj d j); [apply lane_inr|apply tmul_inr; auto using lane_inr; apply (inr_le j); auto; lia|].
    intros r Hr. rewrite tget_base_mul_sub by auto using lane_inr.
    assert (P : 2 ^ (w - j) = 2 ^ (w - (d + j)) * 2 ^ d) by (rewrite <- Nat.pow_add_r; f_equal; lia).
    change (tget_base j) with (lane j). rewrite !lane_nest by auto.
    rewrite L by (rewrite P; nia). rewrite Lb by (rewrite P; nia). reflexivity.
Qed.

Example slices_ex :
  pack_slice 3 2 [1; 2; 3]%N = [0x21; 0x03]%N /\ get_packed_slice 3 2 [0x21; 0x03]%N 2 = Some 3%N /\
  get_packed_slice 3 2 [0x21; 0x03]%N 4 = None /\
  iter_packed_slice_with_offset 3 2 [0x21; 0x43]%N 1 = [2; 3; 4]%N /\
  copy_packed_from_scalars_slice 3 2 [5; 6]%N [0x21; 0x43]%N = Some [0x65; 0x43]%N /\
  mul_by_subfield_scalar 5 1 2 (pmul 5 2) 0x12345678 0x7 =
    from_fn 5 3 (fun i => tmul 3 (lane 3 0x12345678 i) 0x7).
Proof. vm_compute. repeat split. Qed.
