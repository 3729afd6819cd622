(** C43: every transparent polynomial evaluates to the multilinear extension of the table its
    documentation describes, and its tabulation produces that table. *)
Require Import Coq.setoid_ring.Ring Coq.Arith.Arith Coq.Lists.List Coq.Bool.Bool Coq.NArith.NArith Lia.
From Verif Require Import Base.Fld Base.Lists Base.Sums Math.MleSpec Math.MleModel Math.TensorProps
  Math.MleProofs Math.MleProps Field.Examples Field.TowerModel Field.TowerProofs Field.TowerBases
  Transparent.TransparentModel.
Import ListNotations.
Local Close Scope N_scope.
Local Open Scope nat_scope.

Lemma nth_concat_map {A} (f : nat -> list A) s d : (forall c, length (f c) = s) -> 0 < s ->
  forall m b x, x < m * s -> nth x (concat (map f (seq b m))) d = nth (x mod s) (f (b + x / s)) d.
Proof.
  intros HL Hs. induction m; intros b x Hx; [lia|]. cbn [seq map concat].
  destruct (Nat.lt_ge_cases x s) as [L|L].
  - rewrite app_nth1 by (rewrite HL; auto). rewrite Nat.mod_small, Nat.div_small by auto. do 2 f_equal. lia.
  - rewrite app_nth2 by (rewrite HL; auto). rewrite HL, IHm by nia.
    assert (E : x = x - s + 1 * s) by lia.
    rewrite E at 3 4. rewrite Nat.mod_add, Nat.div_add by lia. do 2 f_equal. lia.
Qed.

Lemma concat_map_length {A} (f : nat -> list A) s : (forall c, length (f c) = s) ->
  forall m b, length (concat (map f (seq b m))) = m * s.
Proof. intros HL. induction m; intros; cbn [seq map concat]; auto. rewrite app_length, HL, IHm. lia. Qed.

Section Props.
  Variable F : field.
  Local Open Scope fld_scope.
  Add Ring Fring : (f_ring F).

  (** * Specification *)

  (** The polynomial has [n] variables and is the multilinear extension of the table [v]: at a point
      of the right length it returns the value of the extension, otherwise an error. *)
  Definition evaluates_to (p : mvpoly F) (n : nat) (v : nat -> F) : Prop :=
    mv_nvars p = n /\
    forall q, mv_eval p q = if (length q =? n)%nat then Ok (mle v q) else Err.

  (** The tabulation succeeded, with [n] variables and table [v]. *)
  Definition tabulates (lw n : nat) (v : nat -> F) (r : res (mlext F)) : Prop :=
    exists m, r = Ok m /\ mle_wf lw m /\ me_mu m = n /\
      forall x, (x < 2 ^ n)%nat -> table m x = v x.

  (** Whenever both hold the fast evaluation agrees with evaluating the tabulated multilinear through
      an expanded query. *)
  Theorem fast_eval_is_slow_eval p lw le n v r : evaluates_to p n v -> tabulates lw n v r ->
    exists m, r = Ok m /\ forall q qq, query_expand le q = Ok qq -> me_evaluate lw le m qq = mv_eval p q.
  Proof.
    intros [_ He] (m & -> & Hw & Hm & Ht). exists m. split; auto. intros q qq Hq.
    destruct (query_expand_correct F le q) as (qq' & E & Hh). rewrite E in Hq. injection Hq as <-.
    rewrite (evaluate_correct F lw le _ m qq' q Hw Hh), He, Hm.
    destruct (Nat.eqb_spec (length q) n) as [L|L]; auto. f_equal. apply mle_ext. intros. apply Ht. now rewrite <- L.
  Qed.

  Lemma mle_scale (c : F) (v : nat -> F) q : mle (fun x => c * v x) q = c * mle v q.
  Proof. unfold mle. rewrite <- sumn_scale. apply sumn_ext. intros. ring. Qed.

  Lemma mle_const (c : F) q : mle (fun _ => c) q = c.
  Proof.
    assert (E : mle (fun _ => 1) q = 1).
    { unfold mle. transitivity (sumn (2 ^ length q) (eqw q)); [|apply eqw_sum]. apply sumn_ext. intros. ring. }
    transitivity (c * mle (fun _ => 1) q); [|rewrite E; ring]. rewrite <- mle_scale.
    apply mle_ext. intros. ring.
  Qed.

  (** * Constant *)
  Theorem constant_correct n c : evaluates_to (constant_poly n c) n (fun _ => c).
  Proof.
    split; auto. intros q. cbn [mv_eval constant_poly eq_ind_poly powers_poly select_row_poly step_down_poly step_up_poly]. destruct (length q =? n)%nat; auto. cbn [negb]. now rewrite mle_const.
  Qed.

  (** * Disjoint product *)
  Theorem disjoint_product_correct p0 p1 n0 n1 v0 v1 :
    evaluates_to p0 n0 v0 -> evaluates_to p1 n1 v1 ->
    evaluates_to (disjoint_product p0 p1) (n0 + n1)
      (fun x => v0 (x mod 2 ^ n0)%nat * v1 (x / 2 ^ n0)%nat).
  Proof.
    intros [<- H0] [<- H1]. set (n0 := mv_nvars p0) in *. set (n1 := mv_nvars p1) in *.
    split; auto. intros q. unfold disjoint_product. fold n0 n1. cbn [mv_eval].
    destruct (Nat.eqb_spec (length q) (n0 + n1)) as [E|E]; auto. cbn [negb].
    assert (L0 : length (firstn n0 q) = n0) by (rewrite firstn_length; lia).
    assert (L1 : length (skipn n0 q) = n1) by (rewrite skipn_length; lia).
    rewrite H0, L0, Nat.eqb_refl. cbn [rbind]. rewrite H1, L1, Nat.eqb_refl. cbn [rbind]. f_equal.
    rewrite <- (firstn_skipn n0 q) at 3. rewrite mle_app_low, L0.
    set (a := firstn n0 q) in *. set (b := skipn n0 q) in *. symmetry.
    transitivity (mle (fun y => mle v0 a * v1 y) b); [|apply mle_scale].
    apply mle_ext. intros y Hy.
    transitivity (mle (fun x => v1 y * v0 x) a); [|rewrite mle_scale; ring].
    apply mle_ext. intros x Hx. rewrite L0 in Hx.
    replace (x + 2 ^ n0 * y)%nat with (x + y * 2 ^ n0)%nat by lia. pose proof (pow2_gt0 n0).
    rewrite Nat.mod_add, Nat.div_add, Nat.mod_small, Nat.div_small by lia. cbn [Nat.add]. ring.
  Qed.

  (** * Equality indicator *)
  Lemma eq_ind_loop_spec (q : list F) : forall r acc, length q = length r ->
    eq_ind_loop q r acc = acc * mle (eqw r) q.
  Proof.
    induction q as [|q0 q IH]; intros [|r0 r] acc L; cbn [length] in L; try lia.
    - cbn [eq_ind_loop powers_loop select_row_loop step_down_loop step_up_loop]. rewrite mle_nil. cbn. ring.
    - cbn [eq_ind_loop]. rewrite IH by lia. rewrite mle_cons.
      transitivity (acc * mle (fun x => (q0 * r0 + (1 - q0) * (1 - r0)) * eqw r x) q).
      + rewrite mle_scale. ring.
      + f_equal. apply mle_ext. intros x _. cbn [eqw]. rewrite odd_double0, div_double0, odd_double, div_double by lia.
        cbn [Nat.eqb]. ring.
  Qed.

  Theorem eq_ind_correct (r : list F) : evaluates_to (eq_ind_poly r) (length r) (eqw r).
  Proof.
    split; auto. intros q. cbn [mv_eval constant_poly eq_ind_poly powers_poly select_row_poly step_down_poly step_up_poly]. destruct (Nat.eqb_spec (length q) (length r)); auto. cbn [negb].
    rewrite eq_ind_loop_spec by auto. f_equal. ring.
  Qed.

  (** The table of the equality indicator partially evaluated at a hypercube point is its indicator. *)
  Theorem eq_ind_table n x y : (x < 2 ^ n)%nat -> (y < 2 ^ n)%nat ->
    eqw (vertex (F:=F) n y) x = if (x =? y)%nat then 1 else 0.
  Proof. apply eqw_vertex. Qed.

  Theorem eq_ind_extension_correct lw (r : list F) : tabulates lw (length r) (eqw r) (eq_ind_extension lw r).
  Proof.
    unfold eq_ind_extension. destruct (eq_ind_partial_eval_correct F lw r) as (out & -> & L & V & _).
    cbn [rbind]. pose proof (me_new_correct F lw (length r) out _ L) as H. rewrite Nat.eqb_refl in H.
    destruct H as [-> Hw]. eexists. split; [reflexivity|]. split; auto.
  Qed.

  (** * Powers *)
  Lemma powers_loop_spec (q : list F) : forall b acc,
    powers_loop q b acc = acc * mle (fpow b) q.
  Proof.
    induction q as [|q0 q IH]; intros b acc.
    - cbn [eq_ind_loop powers_loop select_row_loop step_down_loop step_up_loop]. rewrite mle_nil. cbn. ring.
    - cbn [powers_loop]. rewrite IH, mle_cons.
      transitivity (acc * mle (fun x => (1 - q0 + q0 * b) * fpow (b * b) x) q).
      + rewrite mle_scale. ring.
      + f_equal. apply mle_ext. intros x _. rewrite fpow_add.
        replace (fpow b (2 * x)) with (fpow (b * b) x).
        * cbn [fpow]. ring.
        * rewrite Nat.mul_comm, fpow_mul. cbn [fpow]. f_equal. ring.
  Qed.

  Theorem powers_correct n (b : F) : evaluates_to (powers_poly n b) n (fpow b).
  Proof.
    split; auto. intros q. cbn [mv_eval constant_poly eq_ind_poly powers_poly select_row_poly step_down_poly step_up_poly]. destruct (Nat.eqb_spec (length q) n); auto. cbn [negb].
    rewrite powers_loop_spec. f_equal. ring.
  Qed.

  Lemma successors_length (b : F) x n : length (successors b x n) = n.
  Proof. revert x. induction n; cbn; auto. Qed.

  Lemma successors_nth (b : F) n : forall x i d, (i < n)%nat -> nth i (successors b x n) d = x * fpow b i.
  Proof.
    induction n; intros x [|i] d Hi; cbn [successors nth fpow]; try lia.
    - ring.
    - rewrite IHn by lia. ring.
  Qed.

  Lemma powers_chunk_spec lw n (b : F) start len x : length (powers_chunk lw n b start len) = (len * 2 ^ lw)%nat /\
    ((x < len * 2 ^ lw)%nat -> (x < 2 ^ n)%nat -> nth x (powers_chunk lw n b start len) 0 = fpow b (start + x)).
  Proof.
    unfold powers_chunk. set (t := (len * 2 ^ lw)%nat). split.
    - rewrite firstn_length, app_length, repeat_length. lia.
    - intros Ht Hx. rewrite nth_firstn_lt by auto. rewrite app_nth1 by (rewrite successors_length; auto).
      rewrite successors_nth by auto. now rewrite fpow_add.
  Qed.

  Lemma pow2_min a b : Nat.min (2 ^ a) (2 ^ b) = (2 ^ Nat.min a b)%nat.
  Proof.
    destruct (Nat.le_ge_cases a b) as [H|H].
    - rewrite !Nat.min_l; auto. apply Nat.pow_le_mono_r; lia.
    - rewrite !Nat.min_r; auto. apply Nat.pow_le_mono_r; lia.
  Qed.

  (** What the code tabulates: within each chunk of [2^10] packed elements the exponent grows by one
      per scalar, but the chunk's first exponent counts packed elements. *)
  Lemma powers_extension_spec lw n (b : F) :
    tabulates lw n (fun x => fpow b (x / (2 ^ 10 * 2 ^ lw) * 2 ^ 10 + x mod (2 ^ 10 * 2 ^ lw)))
      (powers_extension lw n b).
  Proof.
    unfold powers_extension, tabulates. cbv zeta. replace chunk_log_size with 10%nat by reflexivity.
    generalize 10%nat as cl. intros cl. set (len := (2 ^ (n - lw))%nat).
    set (s := Nat.min (2 ^ cl) len). pose proof (pow2_gt0 cl) as Hcl. pose proof (pow2_gt0 lw) as Hlw.
    assert (Hlen : (0 < len)%nat) by apply pow2_gt0.
    assert (Hs : (0 < s)%nat) by (unfold s; lia).
    assert (EM : exists m, div_ceil len (2 ^ cl) = m /\ len = (m * s)%nat /\
                 (m = 1%nat \/ s = 2 ^ cl)%nat /\ forall c, (c < m)%nat -> Nat.min (2 ^ cl) (len - c * 2 ^ cl) = s).
    { destruct (Nat.le_ge_cases (n - lw) cl) as [H|H].
      - assert (len <= 2 ^ cl)%nat by (apply Nat.pow_le_mono_r; lia). exists 1%nat.
        assert (Es : s = len) by (unfold s; lia). rewrite Es.
        split; [|split; [lia|split; auto]].
        + unfold div_ceil. symmetry. apply (Nat.div_unique _ _ _ (len - 1)); lia.
        + intros c Hc. replace c with 0%nat by lia. lia.
      - assert (E : len = (2 ^ (n - lw - cl) * 2 ^ cl)%nat).
        { unfold len. rewrite <- Nat.pow_add_r. f_equal. lia. }
        assert (Es : s = (2 ^ cl)%nat) by (unfold s; pose proof (pow2_gt0 (n - lw - cl)); nia).
        rewrite Es. exists (2 ^ (n - lw - cl))%nat. split; [rewrite E; apply div_ceil_mul; auto|]. split; auto. split; auto.
        intros c Hc. rewrite E. nia. }
    destruct EM as (m & -> & Elen & Hm & Hmin).
    set (f := fun c => powers_chunk lw n b (c * 2 ^ cl) s).
    replace (map _ (seq 0 m)) with (map f (seq 0 m)).
    2:{ apply map_ext_in. intros c Hc. apply in_seq in Hc. unfold f. now rewrite Hmin by lia. }
    assert (Lf : forall c, length (f c) = (s * 2 ^ lw)%nat) by (intros; apply (powers_chunk_spec lw n b _ _ 0%nat)).
    pose proof (concat_map_length f _ Lf m 0) as LC.
    assert (LT : length (concat (map f (seq 0 m))) = (len * 2 ^ lw)%nat) by (rewrite LC; nia).
    pose proof (me_new_correct F lw n _ _ LT) as H. fold len in H. rewrite Nat.eqb_refl in H.
    destruct H as [-> Hw]. eexists. split; [reflexivity|]. split; auto. split; [reflexivity|].
    intros x Hx. unfold table. cbn [me_evals].
    assert (HxL : (x < len * 2 ^ lw)%nat).
    { unfold len. rewrite pow_sub_mul. apply Nat.lt_le_trans with (1 := Hx). apply Nat.pow_le_mono_r; lia. }
    assert (HW : (0 < s * 2 ^ lw)%nat) by nia.
    rewrite (nth_concat_map f _ 0 Lf HW) by nia. rewrite Nat.add_0_l. unfold f.
    assert (x mod (s * 2 ^ lw) < s * 2 ^ lw)%nat by (apply Nat.mod_upper_bound; lia).
    assert (x mod (s * 2 ^ lw) <= x)%nat by (apply Nat.mod_le; lia).
    rewrite (proj2 (powers_chunk_spec lw n b _ s _)) by lia. f_equal.
    destruct Hm as [->| ->]; auto.
    replace (s * 2 ^ lw)%nat with (len * 2 ^ lw)%nat by nia.
    rewrite Nat.div_small, Nat.mod_small by auto.
    rewrite Nat.div_small, Nat.mod_small; try lia; unfold s in *; nia.
  Qed.

  (** The tabulation is right when the packed type has one lane or the table fits in one chunk. *)
  Theorem powers_extension_correct lw n (b : F) : lw = 0%nat \/ (n <= 10 + lw)%nat ->
    tabulates lw n (fpow b) (powers_extension lw n b).
  Proof.
    intros H. destruct (powers_extension_spec lw n b) as (m & E & Hw & Hm & Ht).
    exists m. repeat split; auto. intros x Hx. rewrite Ht by auto. f_equal. revert H Hx. generalize 10%nat as cl.
    intros cl [->|H] Hx.
    - rewrite Nat.pow_0_r, Nat.mul_1_r. pose proof (Nat.div_mod x (2 ^ cl) ltac:(pose proof (pow2_gt0 cl); lia)). lia.
    - rewrite <- Nat.pow_add_r. assert (x < 2 ^ (cl + lw))%nat.
      { apply Nat.lt_le_trans with (1 := Hx). apply Nat.pow_le_mono_r; lia. }
      rewrite Nat.div_small, Nat.mod_small by auto. lia.
  Qed.

  (** * Row selector *)
  Lemma select_row_loop_spec (q : list F) : forall k acc, (k < 2 ^ length q)%nat ->
    select_row_loop q k acc = acc * mle (fun x => if (x =? k)%nat then 1 else 0) q.
  Proof.
    induction q as [|q0 q IH]; intros k acc Hk.
    - cbn in Hk. replace k with 0%nat by lia. cbn [eq_ind_loop powers_loop select_row_loop step_down_loop step_up_loop]. rewrite mle_nil. cbn. ring.
    - cbn [select_row_loop]. cbn [length] in Hk. rewrite IH by now apply div2_lt_pow. rewrite mle_cons.
      set (c := if Nat.odd k then q0 else 1 - q0).
      transitivity (acc * mle (fun x => c * (if (x =? k / 2)%nat then 1 else 0)) q).
      + rewrite mle_scale. unfold c. destruct (Nat.odd k); ring.
      + f_equal. apply mle_ext. intros x _. pose proof (odd_div k) as E. unfold c.
        destruct (Nat.odd k); destruct (Nat.eqb_spec x (k / 2)), (Nat.eqb_spec (2 * x) k), (Nat.eqb_spec (2 * x + 1) k);
          try lia; ring.
  Qed.

  Theorem select_row_new_spec n index :
    select_row_new n index = if (index <? 2 ^ n)%nat then Ok (n, index) else Err.
  Proof. unfold select_row_new. rewrite Nat.ltb_antisym. now destruct (2 ^ n <=? index)%nat. Qed.

  Theorem select_row_correct n index : (index < 2 ^ n)%nat ->
    evaluates_to (select_row_poly (n, index)) n (fun x => if (x =? index)%nat then 1 else 0).
  Proof.
    intros H. split; auto. intros q. cbn [mv_eval constant_poly eq_ind_poly powers_poly select_row_poly step_down_poly step_up_poly]. destruct (Nat.eqb_spec (length q) n) as [E|E]; auto. cbn [negb].
    rewrite select_row_loop_spec by now rewrite E. f_equal. ring.
  Qed.

  Lemma from_values_wf lw n (v : list F) : (lw <= n)%nat -> length v = (2 ^ (n - lw) * 2 ^ lw)%nat ->
    me_from_values lw v = Ok (mkMle n v) /\ mle_wf lw (mkMle n v).
  Proof.
    intros Hn HL. unfold me_from_values, is_pow2, mle_wf. cbn [me_mu me_evals].
    rewrite HL, Nat.div_mul by (apply Nat.pow_nonzero; lia). rewrite Nat.log2_pow2 by lia.
    rewrite Nat.eqb_refl. pose proof (pow2_gt0 (n - lw)). rewrite (proj2 (Nat.ltb_lt _ _)) by lia. cbn.
    split; auto. do 2 f_equal. lia.
  Qed.

  (** The tabulation refuses packed types wider than the table. *)
  Theorem select_row_extension_correct lw n index : (index < 2 ^ n)%nat ->
    if (lw <=? n)%nat
    then tabulates lw n (fun x => if (x =? index)%nat then 1 else 0) (select_row_extension lw (n, index))
    else select_row_extension (F := F) lw (n, index) = Err.
  Proof.
    intros H. unfold select_row_extension. destruct (Nat.leb_spec lw n) as [L|L].
    - rewrite (proj2 (Nat.ltb_ge n lw)) by lia.
      assert (E : (2 ^ (n - lw) * 2 ^ lw = 2 ^ n)%nat) by (rewrite <- Nat.pow_add_r; f_equal; lia).
      rewrite (proj2 (Nat.ltb_lt _ _)).
      2:{ apply Nat.div_lt_upper_bound; [apply Nat.pow_nonzero; lia|lia]. }
      destruct (from_values_wf lw n (upd (repeat 0 (2 ^ (n - lw) * 2 ^ lw)) index 1) L) as [E1 E2].
      { now rewrite upd_length, repeat_length. }
      rewrite E1. eexists. split; [reflexivity|]. split; auto. split; auto.
      intros x Hx. unfold table. cbn [me_evals]. rewrite upd_nth, repeat_length, E, (proj2 (Nat.ltb_lt index _)) by auto.
      rewrite andb_true_r. destruct (x =? index)%nat; auto. apply nth_repeat0. lia.
    - now rewrite (proj2 (Nat.ltb_lt n lw)).
  Qed.

  (** * Step functions *)
  Theorem step_new_spec n index :
    step_new n index = if (index <=? 2 ^ n)%nat then Ok (n, index) else Err.
  Proof. unfold step_new. rewrite Nat.leb_antisym. now destruct (2 ^ n <? index)%nat. Qed.

  Lemma step_down_loop_spec (q : list F) : forall k acc, (k < 2 ^ length q)%nat ->
    step_down_loop q k acc =
      mle (fun x => if (x <? k)%nat then 1 else if (x =? k)%nat then acc else 0) q.
  Proof.
    induction q as [|q0 q IH]; intros k acc Hk.
    - cbn in Hk. replace k with 0%nat by lia. cbn [eq_ind_loop powers_loop select_row_loop step_down_loop step_up_loop]. rewrite mle_nil. reflexivity.
    - cbn [step_down_loop]. cbn [length] in Hk. rewrite IH by now apply div2_lt_pow. rewrite mle_cons.
      apply mle_ext. intros x _. pose proof (odd_div k) as E.
      destruct (Nat.odd k), (Nat.ltb_spec x (k / 2)), (Nat.eqb_spec x (k / 2)), (Nat.ltb_spec (2 * x) k),
        (Nat.ltb_spec (2 * x + 1) k), (Nat.eqb_spec (2 * x) k), (Nat.eqb_spec (2 * x + 1) k);
        try lia; ring.
  Qed.

  Theorem step_down_correct n index : (index <= 2 ^ n)%nat ->
    evaluates_to (step_down_poly (n, index)) n (fun x => if (x <? index)%nat then 1 else 0).
  Proof.
    intros H. split; auto. intros q. cbn [mv_eval constant_poly eq_ind_poly powers_poly select_row_poly step_down_poly step_up_poly]. destruct (Nat.eqb_spec (length q) n) as [E|E]; auto. cbn [negb].
    destruct (Nat.eqb_spec index (2 ^ n)) as [EI|EI].
    - f_equal. symmetry. transitivity (mle (fun _ => 1) q); [|apply mle_const]. apply mle_ext. intros x Hx.
      rewrite E, <- EI in Hx. now rewrite (proj2 (Nat.ltb_lt _ _)).
    - rewrite step_down_loop_spec by (rewrite E; lia). f_equal. apply mle_ext. intros x _.
      now destruct (x <? index)%nat, (x =? index)%nat.
  Qed.

  Lemma step_up_loop_spec (q : list F) : forall k acc, (k < 2 ^ length q)%nat ->
    step_up_loop q k acc =
      mle (fun x => if (x <? k)%nat then 0 else if (x =? k)%nat then acc else 1) q.
  Proof.
    induction q as [|q0 q IH]; intros k acc Hk.
    - cbn in Hk. replace k with 0%nat by lia. cbn [eq_ind_loop powers_loop select_row_loop step_down_loop step_up_loop]. rewrite mle_nil. reflexivity.
    - cbn [step_up_loop]. cbn [length] in Hk. rewrite IH by now apply div2_lt_pow. rewrite mle_cons.
      apply mle_ext. intros x _. pose proof (odd_div k) as E.
      destruct (Nat.odd k), (Nat.ltb_spec x (k / 2)), (Nat.eqb_spec x (k / 2)), (Nat.ltb_spec (2 * x) k),
        (Nat.ltb_spec (2 * x + 1) k), (Nat.eqb_spec (2 * x) k), (Nat.eqb_spec (2 * x + 1) k);
        try lia; ring.
  Qed.

  Theorem step_up_correct n index : (index <= 2 ^ n)%nat ->
    evaluates_to (step_up_poly (n, index)) n (fun x => if (x <? index)%nat then 0 else 1).
  Proof.
    intros H. split; auto. intros q. cbn [mv_eval constant_poly eq_ind_poly powers_poly select_row_poly step_down_poly step_up_poly]. destruct (Nat.eqb_spec (length q) n) as [E|E]; auto. cbn [negb].
    destruct (Nat.eqb_spec index (2 ^ n)) as [EI|EI].
    - f_equal. symmetry. transitivity (mle (fun _ => 0) q); [|apply mle_const]. apply mle_ext. intros x Hx.
      rewrite E, <- EI in Hx. now rewrite (proj2 (Nat.ltb_lt _ _)).
    - rewrite step_up_loop_spec by (rewrite E; lia). f_equal. apply mle_ext. intros x _.
      now destruct (x <? index)%nat, (x =? index)%nat.
  Qed.

  (** [populate] on any slice of whole packed elements: it panics exactly when the index lies beyond
      the slice, and otherwise writes the step function over the whole slice. *)
  Theorem step_populate_correct lw (below above : F) index data k : length data = (k * 2 ^ lw)%nat ->
    if (index <=? k * 2 ^ lw)%nat then
      exists out, step_populate lw below above index data = Some out /\ length out = length data /\
        forall x, (x < length data)%nat -> nth x out 0 = if (x <? index)%nat then below else above
    else step_populate lw below above index data = None.
  Proof.
    intros HL. unfold step_populate. cbv zeta. set (w := (2 ^ lw)%nat) in *.
    assert (Hw : (0 < w)%nat) by apply pow2_gt0.
    pose proof (Nat.div_mod index w ltac:(lia)) as DM. pose proof (Nat.mod_upper_bound index w ltac:(lia)) as MB.
    set (p := (index / w)%nat) in *. set (r := (index mod w)%nat) in *. rewrite HL.
    destruct (Nat.leb_spec index (k * w)) as [LI|LI].
    - assert (Hp : (p * w <= k * w)%nat) by nia. rewrite (proj2 (Nat.leb_le _ _)) by auto.
      set (l0 := repeat below (p * w) ++ repeat above (k * w - p * w)).
      destruct (ofold_inv (fun d i => if (p * w <? length d)%nat then Some (upd d (p * w + i) below) else None)
        (fun m d => length d = (k * w)%nat /\ forall x, (x < k * w)%nat -> nth x d 0 = if (x <? p * w + m)%nat then below else above)
        (seq 0 r) l0 0) as (out & E & L & V).
      + split.
        * unfold l0. rewrite app_length, !repeat_length. lia.
        * intros x Hx. unfold l0. rewrite Nat.add_0_r. destruct (Nat.ltb_spec x (p * w)).
          -- rewrite app_nth1 by (rewrite repeat_length; auto). apply nth_repeat0; auto.
          -- rewrite app_nth2 by (rewrite repeat_length; auto). rewrite repeat_length. apply nth_repeat0. lia.
      + intros i b d Hb [Ld Vd]. assert (Hi : (i < r)%nat) by (rewrite <- (seq_length r 0); apply nth_error_Some; congruence).
        assert (b = i).
        { rewrite (nth_error_nth' _ 0%nat) in Hb by now rewrite seq_length. rewrite seq_nth in Hb by auto. injection Hb. lia. }
        subst b. assert (p * w + i < k * w)%nat by lia.
        rewrite Ld, (proj2 (Nat.ltb_lt (p * w) _)) by lia. eexists. split; [reflexivity|]. split; [now rewrite upd_length|].
        intros x Hx. rewrite upd_nth, Ld, (proj2 (Nat.ltb_lt (p * w + i) _)), andb_true_r by lia.
        destruct (Nat.eqb_spec x (p * w + i)).
        * subst x. now rewrite (proj2 (Nat.ltb_lt _ _)) by lia.
        * rewrite Vd by auto. cbn [Nat.add].
          destruct (Nat.ltb_spec x (p * w + i)), (Nat.ltb_spec x (p * w + S i)); auto; lia.
      + rewrite E. exists out. split; auto. split; auto. intros x Hx. rewrite V by auto.
        rewrite seq_length. cbn [Nat.add]. now replace (p * w + r)%nat with index by lia.
    - destruct (Nat.leb_spec (p * w) (k * w)) as [Hp|Hp]; auto.
      assert (p = k) by nia. subst k. assert (0 < r)%nat by lia.
      destruct r as [|r']; [lia|]. cbn [seq ofold]. rewrite app_length, !repeat_length.
      rewrite (proj2 (Nat.ltb_ge _ _)) by lia. reflexivity.
  Qed.

  Lemma step_extension lw n (below : F) above index init : (index <= 2 ^ n)%nat ->
    tabulates lw n (fun x => if (x <? index)%nat then below else above)
      (try data <- of_opt (step_populate lw below above index (repeat init (2 ^ (n - lw) * 2 ^ lw)%nat));
       me_new lw n data).
  Proof.
    intros H. set (data := repeat init _).
    assert (L : length data = (2 ^ (n - lw) * 2 ^ lw)%nat) by apply repeat_length.
    assert (G : (2 ^ n <= 2 ^ (n - lw) * 2 ^ lw)%nat).
    { rewrite pow_sub_mul. apply Nat.pow_le_mono_r; lia. }
    pose proof (step_populate_correct lw below above index data _ L) as P.
    rewrite (proj2 (Nat.leb_le _ _)) in P by lia. destruct P as (out & -> & LO & V). cbn [of_opt rbind].
    rewrite L in LO. pose proof (me_new_correct F lw n out _ LO) as M. rewrite Nat.eqb_refl in M.
    destruct M as [-> Hw]. eexists. split; [reflexivity|]. split; auto. split; auto.
    intros x Hx. unfold table. cbn [me_evals]. apply V. lia.
  Qed.

  Theorem step_down_extension_correct lw n index : (index <= 2 ^ n)%nat ->
    tabulates lw n (fun x => if (x <? index)%nat then 1 else 0) (step_down_extension lw (n, index)).
  Proof. apply step_extension. Qed.

  Theorem step_up_extension_correct lw n index : (index <= 2 ^ n)%nat ->
    tabulates lw n (fun x => if (x <? index)%nat then 0 else 1) (step_up_extension lw (n, index)).
  Proof. apply step_extension. Qed.

  (** * Tabulated multilinears *)
  Theorem mlet_correct lw le n (values : list F) : (lw <= n)%nat -> length values = (2 ^ n)%nat ->
    exists m, mlet_new lw values = Ok m /\
      evaluates_to (mlet_poly lw le m) n (fun x => nth x values 0).
  Proof.
    intros Hn HL. destruct (from_values_wf lw n values Hn) as [E Hw].
    { rewrite HL, <- Nat.pow_add_r. f_equal. lia. }
    exists (mkMle n values). split; auto. split; auto. intros q. unfold mlet_poly. cbn [mv_eval].
    destruct (query_expand_correct F le q) as (qq & -> & Hq). cbn [rbind].
    rewrite (evaluate_correct F lw le _ _ qq q Hw Hq). reflexivity.
  Qed.
End Props.
