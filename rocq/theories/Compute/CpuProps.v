(** C52: the operations of the reference compute layer. *)
Require Import Coq.NArith.NArith Coq.setoid_ring.Ring Coq.Arith.Arith Coq.Lists.List Coq.Bool.Bool Lia.
From Verif Require Import Base.Fld Base.Lists Base.Sums Base.NatBits Field.Examples Field.TowerProofs Field.TowerModel
  Math.MleSpec Math.ArithModel Math.ArithProofs Math.ArithProps Compute.CpuModel.
Import ListNotations.
Local Close Scope N_scope.
Local Open Scope nat_scope.

Lemma rmap_ok {A B} (f : A -> res B) (g : A -> B) l : (forall x, In x l -> f x = Ok (g x)) -> rmap f l = Ok (map g l).
Proof.
  induction l as [|x l IH]; intros H; [reflexivity|]. cbn [rmap map]. rewrite H by now left. cbn [rbind].
  rewrite IH by (intros; apply H; now right). reflexivity.
Qed.
Lemma ilog2_pow n : ilog2 (2 ^ n) = Ok n.
Proof. unfold ilog2. pose proof (pow2_pos n). destruct (Nat.eqb_spec (2 ^ n) 0); [lia|]. now rewrite Nat.log2_pow2 by lia. Qed.
Lemma usub_ok a b : b <= a -> usub a b = Ok (a - b).
Proof. intros H. unfold usub. destruct (Nat.ltb_spec a b); [lia|reflexivity]. Qed.
Lemma strict_log_pow n : strict_log (2 ^ n) = Some n.
Proof.
  unfold strict_log. pose proof (pow2_pos n). destruct (Nat.eqb_spec (2 ^ n) 0); [lia|]. rewrite Nat.log2_pow2 by lia. now rewrite Nat.eqb_refl.
Qed.
Lemma strict_log_some n k : strict_log n = Some k -> n = 2 ^ k.
Proof.
  unfold strict_log. destruct (n =? 0); [discriminate|]. destruct (Nat.eqb_spec n (2 ^ Nat.log2 n)) as [E|]; [|discriminate]. now injection 1 as <-.
Qed.
Lemma flat_map_const {A B} (f : A -> list B) c l : (forall x, length (f x) = c) -> length (flat_map f l) = length l * c.
Proof. intros H. induction l as [|x l IH]; [reflexivity|]. cbn [flat_map length]. rewrite app_length, H, IH. lia. Qed.
Lemma combine_nth2 {A B} (l : list A) (l' : list B) i d d' : length l = length l' -> nth i (combine l l') (d, d') = (nth i l d, nth i l' d').
Proof. intros H. now apply combine_nth. Qed.

Section Props.
  Variable F : field.
  Local Open Scope fld_scope.
  Add Ring Fring : (f_ring F).
  Variable top : nat.
  Variable bases : nat -> F -> list F.
  Hypothesis bases_len : forall level x, (level <= top)%nat -> length (bases level x) = (2 ^ (top - level))%nat.
  Notation subfield_elems level slice := (flat_map (bases level) slice).

  Lemma elems_len level l : (level <= top)%nat -> length (subfield_elems level l) = (length l * 2 ^ (top - level))%nat.
  Proof. intros H. apply flat_map_const. intros x. now apply bases_len. Qed.

  Lemma fsum_combine (a b : list F) : length a = length b ->
    fsum (map (fun p => fst p * snd p) (combine a b)) = sumn (length a) (fun i => nth i a 0 * nth i b 0).
  Proof.
    intros H. rewrite fsum_nth. rewrite map_length, combine_length, <- H, Nat.min_id. apply sumn_ext. intros i Hi.
    rewrite nth_map_lt with (d' := (0, 0)) by (rewrite combine_length, <- H; lia). now rewrite combine_nth2.
  Qed.

  (** The inner product of the subfield elements in [a] with [b]; wrong lengths and levels are errors. *)
  Theorem inner_product_correct a level b :
    inner_product F top bases a level b =
      if (level <=? top)%nat && supported level && (length b =? length (subfield_elems level a))%nat
      then Ok (sumn (length b) (fun i => nth i (subfield_elems level a) 0 * nth i b 0)) else Err.
  Proof.
    unfold inner_product. destruct (Nat.leb_spec level top) as [L|L].
    2:{ destruct (Nat.ltb_spec top level); [reflexivity|lia]. }
    destruct (Nat.ltb_spec top level); [lia|]. cbn [orb andb]. rewrite elems_len by auto. rewrite (Nat.eqb_sym (length b)).
    destruct (Nat.eqb_spec (length a * 2 ^ (top - level)) (length b)) as [E|E]; cbn [negb].
    2:{ now rewrite andb_false_r. }
    rewrite andb_true_r. destruct (supported level); [|reflexivity]. cbn [negb]. f_equal.
    rewrite fsum_combine by (rewrite elems_len by auto; lia). apply sumn_ext. intros. ring.
  Qed.

  Lemma dot_ok (q e : list F) (ix : nat -> nat) n : (n <= length q)%nat -> (forall j, (j < n)%nat -> (ix j < length e)%nat) ->
    fold_left (fun acc j => try acc <- acc; try q' <- of_opt (nth_error q j); try e' <- of_opt (nth_error e (ix j)); Ok (acc + q' * e')) (seq 0 n) (Ok 0)
    = Ok (sumn n (fun j => nth j q 0 * nth (ix j) e 0)).
  Proof.
    intros Hq He.
    assert (G : forall m, (m <= n)%nat -> forall acc, fold_left (fun acc j => try acc <- acc; try q' <- of_opt (nth_error q j); try e' <- of_opt (nth_error e (ix j)); Ok (acc + q' * e')) (seq 0 m) (Ok acc)
      = Ok (acc + sumn m (fun j => nth j q 0 * nth (ix j) e 0))).
    { induction m as [|m IH]; intros Hm acc; [cbn [seq fold_left]; rewrite sumn_0; f_equal; ring|].
      rewrite seq_S, fold_left_app, IH by lia. cbn [fold_left rbind]. rewrite Nat.add_0_l.
      rewrite (nth_error_nth_eq q m 0) by lia. cbn [of_opt rbind]. rewrite (nth_error_nth_eq e (ix m) 0) by (apply He; lia). cbn [of_opt rbind].
      rewrite sumn_S. f_equal. ring. }
    rewrite G by lia. f_equal. ring.
  Qed.

  Section Fold.
    Variables (mat vec out : list F) (level n m : nat).
    Hypothesis LV : (level <= top)%nat.
    Hypothesis SUP : supported level = true.
    Hypothesis LM : length (subfield_elems level mat) = (2 ^ (n + m))%nat.
    Hypothesis LVEC : length vec = (2 ^ m)%nat.
    Hypothesis LOUT : length out = (2 ^ n)%nat.

    Lemma mat_log : exists k, length mat = (2 ^ k)%nat /\ (k + top - level = n + m)%nat.
    Proof.
      rewrite elems_len in LM by auto.
      assert (top - level <= n + m)%nat.
      { destruct (Nat.le_gt_cases (top - level) (n + m)); auto. apply pow2_lt in H. destruct (length mat); [pose proof (pow2_pos (n + m)); lia|nia]. }
      exists (n + m - (top - level))%nat. split; [|lia].
      assert (PW : (2 ^ (n + m) = 2 ^ (n + m - (top - level)) * 2 ^ (top - level))%nat) by (rewrite <- Nat.pow_add_r; f_equal; lia).
      rewrite PW in LM. pose proof (pow2_pos (top - level)). nia.
    Qed.

    (** fold_left: entry [i] of the result is the sum over [j] of vec[j] times the entry [j * n + i] of the matrix. *)
    Theorem fold_left_correct : exists r, fold_left_op F top bases mat level vec out = Ok r /\ length r = (2 ^ n)%nat /\
      forall i, (i < 2 ^ n)%nat -> nth i r 0 = sumn (2 ^ m) (fun j => nth j vec 0 * nth (j * 2 ^ n + i) (subfield_elems level mat) 0).
    Proof.
      destruct mat_log as (k & LK & KE). unfold fold_left_op, fold_with. destruct (Nat.ltb_spec top level); [lia|].
      rewrite LK, ilog2_pow. cbn [rbind]. rewrite SUP. cbn [negb]. rewrite KE. unfold compute_left_fold. rewrite LVEC, ilog2_pow. cbn [rbind].
      rewrite usub_ok by lia. cbn [rbind]. replace (n + m - m)%nat with n by lia. rewrite LM, LOUT.
      replace (2 ^ m * 2 ^ n)%nat with (2 ^ (n + m))%nat by (rewrite Nat.pow_add_r; lia). rewrite !Nat.eqb_refl. cbn [negb].
      rewrite rmap_ok with (g := fun i => sumn (2 ^ m) (fun j => nth j vec 0 * nth (j * 2 ^ n + i) (subfield_elems level mat) 0)).
      - eexists. split; [reflexivity|]. split; [now rewrite map_length, seq_length|]. intros i Hi. now rewrite nth_map_seq.
      - intros i Hi. apply in_seq in Hi. apply dot_ok; [lia|]. intros j Hj. rewrite LM. now apply mix_lt.
    Qed.

    (** fold_right: entry [i] of the result is the sum over [j] of vec[j] times the entry [i * |vec| + j]. *)
    Theorem fold_right_correct : exists r, fold_right_op F top bases mat level vec out = Ok r /\ length r = (2 ^ n)%nat /\
      forall i, (i < 2 ^ n)%nat -> nth i r 0 = sumn (2 ^ m) (fun j => nth j vec 0 * nth (i * 2 ^ m + j) (subfield_elems level mat) 0).
    Proof.
      destruct mat_log as (k & LK & KE). unfold fold_right_op, fold_with. destruct (Nat.ltb_spec top level); [lia|].
      rewrite LK, ilog2_pow. cbn [rbind]. rewrite SUP. cbn [negb]. rewrite KE. unfold compute_right_fold. rewrite LVEC, ilog2_pow. cbn [rbind].
      rewrite usub_ok by lia. cbn [rbind]. replace (n + m - m)%nat with n by lia. rewrite LM, LOUT.
      replace (2 ^ n * 2 ^ m)%nat with (2 ^ (n + m))%nat by (rewrite Nat.pow_add_r; lia). rewrite !Nat.eqb_refl. cbn [negb].
      rewrite rmap_ok with (g := fun i => sumn (2 ^ m) (fun j => nth j vec 0 * nth (i * 2 ^ m + j) (subfield_elems level mat) 0)).
      - eexists. split; [reflexivity|]. split; [now rewrite map_length, seq_length|]. intros i Hi. now rewrite nth_map_seq.
      - intros i Hi. apply in_seq in Hi. apply dot_ok; [lia|]. intros j Hj. rewrite LM. rewrite (Nat.add_comm n). now apply mix_lt.
    Qed.
  End Fold.

  (** A successful fold had matching power-of-two sizes: a mismatch is never silently accepted. *)
  Theorem fold_rejects mat vec out level :
    let bad r := match r with Ok _ => False | _ => True end in
    (top < level)%nat \/ supported level = false \/ length (subfield_elems level mat) <> (length vec * length out)%nat \/
      strict_log (length vec) = None \/ strict_log (length out) = None ->
    bad (fold_left_op F top bases mat level vec out) /\ bad (fold_right_op F top bases mat level vec out).
  Proof.
    intros bad H. unfold fold_left_op, fold_right_op, fold_with. destruct (Nat.ltb_spec top level) as [|LV]; [split; exact I|].
    unfold ilog2 at 1 2. destruct (length mat =? 0); [split; exact I|]. cbn [rbind]. destruct (supported level) eqn:SU; [|split; exact I]. cbn [negb].
    assert (H' : length (subfield_elems level mat) <> (length vec * length out)%nat \/ strict_log (length vec) = None \/ strict_log (length out) = None)
      by (destruct H as [H|[H|H]]; [lia|congruence|exact H]). clear H.
    unfold compute_left_fold, compute_right_fold. unfold ilog2. destruct (length vec =? 0) eqn:VZ; [split; exact I|]. cbn [rbind].
    set (lq := Nat.log2 (length vec)) in *. unfold usub. destruct (_ <? lq)%nat; [split; exact I|]. cbn [rbind].
    set (lo := (_ - lq)%nat).
    assert (G : length (subfield_elems level mat) = (2 ^ lq * 2 ^ lo)%nat -> length vec = (2 ^ lq)%nat -> length out = (2 ^ lo)%nat -> False).
    { intros E1 E2 E3. destruct H' as [D|[D|D]]; [apply D; now rewrite E1, E2, E3|rewrite E2, strict_log_pow in D; discriminate|rewrite E3, strict_log_pow in D; discriminate]. }
    rewrite (Nat.mul_comm (2 ^ lo)).
    destruct (Nat.eqb_spec (length (subfield_elems level mat)) (2 ^ lq * 2 ^ lo)) as [E1|]; [|split; exact I]. cbn [negb].
    destruct (Nat.eqb_spec (length vec) (2 ^ lq)) as [E2|]; [|split; exact I]. cbn [negb].
    destruct (Nat.eqb_spec (length out) (2 ^ lo)) as [E3|]; [|split; exact I]. exfalso. now apply G.
  Qed.

  (** The documentation promises an error for every size mismatch; an empty matrix, an empty vector and a vector longer
      than the matrix panic instead. *)
  Theorem fold_size_mismatch_refuted (vec out : list F) (x : F) : (length vec > 1)%nat -> supported top = true ->
    fold_left_op F top bases [] top vec out = Panic /\ fold_left_op F top bases [x] top [] out = Panic /\
    fold_left_op F top bases [x] top vec out = Panic.
  Proof.
    intros Lv SUP. unfold fold_left_op, fold_with. rewrite Nat.ltb_irrefl. split; [reflexivity|]. rewrite SUP. unfold ilog2. cbn [length Nat.eqb Nat.log2 rbind negb].
    split; [reflexivity|]. unfold compute_left_fold, ilog2. destruct (Nat.eqb_spec (length vec) 0); [lia|]. cbn [rbind].
    unfold usub. change (Nat.log2 1) with 0%nat. rewrite Nat.add_0_l, Nat.sub_diag.
    assert (1 <= Nat.log2 (length vec))%nat by (change 1%nat with (Nat.log2 2); apply Nat.log2_le_mono; lia).
    destruct (Nat.ltb_spec 0 (Nat.log2 (length vec))); [reflexivity|lia].
  Qed.

  (** ** tensor_expand *)
  Lemma combine_zero_tail (l t : list F) r : length t = length l -> Forall (eq 0) t ->
    map (fun p => snd p + fst p * r) (combine l t) = map (fun x => x * r) l.
  Proof.
    revert t. induction l as [|x l IH]; intros [|y t] E H; cbn in E; try discriminate; [reflexivity|].
    inversion H; subst. cbn [combine map fst snd]. rewrite IH by (auto; lia). f_equal. ring.
  Qed.
  Lemma Forall_firstn' {A} (P : A -> Prop) n l : Forall P l -> Forall P (firstn n l).
  Proof. intros H. revert n. induction H; intros [|n]; cbn; auto. Qed.
  Lemma Forall_skipn' {A} (P : A -> Prop) n l : Forall P l -> Forall P (skipn n l).
  Proof. intros H. revert n. induction H; intros [|n]; cbn; auto. Qed.

  Lemma tensor_step_ok m (v tail : list F) r : length v = (2 ^ m)%nat -> (2 ^ m <= length tail)%nat ->
    tensor_expand_step F m (v ++ tail) r =
      Ok (map (fun x => x - x * r) v ++ map (fun p => snd p + fst p * r) (combine v (firstn (2 ^ m) tail)) ++ skipn (2 ^ m) tail).
  Proof.
    intros Lv Lt. unfold tensor_expand_step. destruct (Nat.ltb_spec (length (v ++ tail)) (2 ^ m)); [rewrite app_length in *; lia|].
    assert (E1 : skipn (2 ^ m) (v ++ tail) = tail) by (rewrite <- Lv, skipn_app, Nat.sub_diag, skipn_all; reflexivity).
    assert (E2 : firstn (2 ^ m) (v ++ tail) = v) by (rewrite <- Lv, firstn_app, Nat.sub_diag, firstn_all, firstn_O, app_nil_r; reflexivity).
    rewrite E1, E2. destruct (Nat.ltb_spec (length tail) (2 ^ m)); [lia|reflexivity].
  Qed.

  Lemma tensor_loop_ok coords : forall m (v tail : list F), length v = (2 ^ m)%nat ->
    length (v ++ tail) = (2 ^ (m + length coords))%nat -> Forall (eq 0) tail ->
    exists out, tensor_expand_loop F m coords (v ++ tail) = Ok out /\ length out = (2 ^ (m + length coords))%nat /\
      forall x, (x < 2 ^ (m + length coords))%nat -> nth x out 0 = nth (x mod 2 ^ m) v 0 * eqw coords (x / 2 ^ m).
  Proof.
    induction coords as [|r coords IH]; intros m v tail Lv L Z.
    - cbn [length] in *. rewrite Nat.add_0_r in *. rewrite app_length in L. destruct tail; [|cbn in L; lia]. rewrite app_nil_r. cbn [tensor_expand_loop].
      exists v. split; [reflexivity|]. split; [auto|]. intros x Hx. cbn [eqw]. rewrite Nat.mod_small by auto. ring.
    - cbn [length] in *. rewrite Nat.add_succ_r in *. cbn [tensor_expand_loop].
      assert (PW : (2 ^ S (m + length coords) = 2 ^ length coords * (2 ^ m + 2 ^ m))%nat) by (rewrite <- Nat.add_succ_r, Nat.pow_add_r, Nat.pow_succ_r'; lia).
      pose proof (pow2_pos (length coords)). rewrite app_length in L. assert (LT : (2 ^ m <= length tail)%nat) by nia.
      rewrite tensor_step_ok by auto. cbn [rbind].
      rewrite combine_zero_tail by (try apply Forall_firstn'; auto; rewrite firstn_length; lia).
      rewrite app_assoc. set (v' := map (fun x => x - x * r) v ++ map (fun x => x * r) v).
      assert (Lv' : length v' = (2 ^ S m)%nat) by (unfold v'; rewrite app_length, !map_length, Nat.pow_succ_r'; lia).
      destruct (IH (S m) v' (skipn (2 ^ m) tail)) as (out & E & LO & HO); auto.
      { rewrite app_length, Lv', skipn_length, Nat.pow_succ_r', Nat.add_succ_l. lia. }
      { now apply Forall_skipn'. }
      rewrite Nat.add_succ_l in *. exists out. split; [exact E|]. split; [auto|]. intros x Hx. rewrite HO by auto. cbn [eqw].
      rewrite Nat.div_div by (try apply Nat.pow_nonzero; lia). replace (2 ^ m * 2)%nat with (2 ^ S m)%nat by (rewrite Nat.pow_succ_r'; lia).
      rewrite mod_S. rewrite <- (shr_div x m), <- Nat.testbit_odd.
      destruct (Nat.testbit x m).
      + unfold v'. rewrite app_nth2; rewrite map_length, Lv; [|lia]. replace (2 ^ m + x mod 2 ^ m - 2 ^ m)%nat with (x mod 2 ^ m)%nat by lia.
        rewrite nth_map_lt with (d' := 0) by (rewrite Lv; apply mod_lt). ring.
      + unfold v'. rewrite app_nth1; rewrite Nat.add_0_l; [|rewrite map_length, Lv; apply mod_lt].
        rewrite nth_map_lt with (d' := 0) by (rewrite Lv; apply mod_lt). ring.
  Qed.

  (** The tensor product of the first 2^log_n entries with (1 - r_i, r_i), provided the rest of the buffer is zero. *)
  Theorem tensor_expand_correct log_n coords (data : list F) :
    length data = (2 ^ (log_n + length coords))%nat -> (forall x, (2 ^ log_n <= x)%nat -> nth x data 0 = 0) ->
    exists out, tensor_expand F log_n coords data = Ok out /\ length out = length data /\
      forall x, (x < length data)%nat -> nth x out 0 = nth (x mod 2 ^ log_n) data 0 * eqw coords (x / 2 ^ log_n).
  Proof.
    intros L Z. unfold tensor_expand. rewrite L, Nat.eqb_refl. cbn [negb].
    assert (LL : (2 ^ log_n <= length data)%nat) by (rewrite L; apply NatBits.pow2_le; lia).
    destruct (tensor_loop_ok coords log_n (firstn (2 ^ log_n) data) (skipn (2 ^ log_n) data)) as (out & E & LO & H).
    - rewrite firstn_length. lia.
    - now rewrite firstn_skipn.
    - apply Forall_nth. intros i d Hi. rewrite skipn_length in Hi. rewrite (nth_indep _ d 0), nth_skipn' by (rewrite skipn_length; lia). symmetry. apply Z. lia.
    - rewrite firstn_skipn in E. exists out. split; [exact E|]. split; [exact LO|]. intros x Hx. rewrite H by lia.
      now rewrite nth_firstn_lt by apply mod_lt.
  Qed.
  Theorem tensor_expand_rejects log_n coords (data : list F) :
    length data <> (2 ^ (log_n + length coords))%nat -> tensor_expand F log_n coords data = Err.
  Proof. intros H. unfold tensor_expand. now rewrite (proj2 (Nat.eqb_neq _ _) H). Qed.

  (** The documented result depends only on the first 2^log_n entries; the code adds to what the rest of the buffer
      held, so stale entries survive in the result. *)
  Theorem tensor_expand_stale_refuted (r v stale : F) :
    tensor_expand F 0 [r] [v; stale] = Ok [v - v * r; stale + v * r].
  Proof. reflexivity. Qed.

  (** eq_ind_partial_eval on device memory is the equality indicator when the allocated slice was zero, and is wrong by the
      old contents otherwise: the allocator does not clear memory. *)
  Theorem hal_eq_ind_partial_eval_correct (point buffer : list F) :
    length buffer = (2 ^ length point)%nat -> (forall x, (1 <= x)%nat -> nth x buffer 0 = 0) ->
    exists out, hal_eq_ind_partial_eval F point buffer = Ok out /\ length out = (2 ^ length point)%nat /\
      forall x, (x < 2 ^ length point)%nat -> nth x out 0 = eqw point x.
  Proof.
    intros L Z. destruct buffer as [|b tail]; [pose proof (pow2_pos (length point)); cbn in L; lia|].
    destruct (tensor_expand_correct 0 point (1 :: tail)) as (out & E & LO & H); auto.
    - intros [|x] Hx; [cbn in Hx; lia|]. exact (Z (S x) ltac:(lia)).
    - unfold hal_eq_ind_partial_eval. exists out. split; [exact E|]. change (length (1 :: tail)) with (length (b :: tail)) in *. rewrite L in *. split; [auto|].
      intros x Hx. rewrite H by auto. change (2 ^ 0)%nat with 1%nat. rewrite Nat.mod_1_r, Nat.div_1_r. cbn [nth]. ring.
  Qed.
  Theorem hal_eq_ind_partial_eval_stale_refuted (r b stale : F) : stale <> 0 ->
    exists out, hal_eq_ind_partial_eval F [r] [b; stale] = Ok out /\ nth 1 out 0 <> eqw [r] 1.
  Proof.
    intros N. exists [1 - 1 * r; stale + 1 * r]. split; [reflexivity|]. intros E. apply N.
    change (stale + 1 * r = r * 1) in E. replace stale with (stale + 1 * r - 1 * r) by ring. rewrite E. ring.
  Qed.

  (** ** Element-wise operations *)
  Theorem copy_fill_correct (src dst : list F) value :
    copy F src dst = (if (length src =? length dst)%nat then Ok src else Panic) /\ fill F dst value = Ok (repeat value (length dst)).
  Proof.
    unfold copy, fill. split; [now destruct (length src =? length dst)%nat|]. f_equal. induction dst; cbn; congruence.
  Qed.

  Theorem extrapolate_line_correct (e0 e1 : list F) z : length e0 = length e1 ->
    exists out, extrapolate_line F e0 e1 z = Ok out /\ length out = length e0 /\
      forall i, (i < length e0)%nat -> nth i out 0 = (1 - z) * nth i e0 0 + z * nth i e1 0.
  Proof.
    intros L. unfold extrapolate_line. rewrite L, Nat.eqb_refl. cbn [negb]. eexists. split; [reflexivity|].
    rewrite map_length, combine_length, <- L, Nat.min_id. split; [auto|]. intros i Hi.
    rewrite nth_map_lt with (d' := (0, 0)) by (rewrite combine_length; lia). rewrite combine_nth2 by auto. cbn [fst snd]. ring.
  Qed.
  Theorem extrapolate_line_rejects (e0 e1 : list F) z : length e0 <> length e1 -> extrapolate_line F e0 e1 z = Err.
  Proof. intros H. unfold extrapolate_line. now rewrite (proj2 (Nat.eqb_neq _ _) H). Qed.

  Theorem kernel_add_correct log_len (a b dst : list F) : length a = (2 ^ log_len)%nat -> length b = (2 ^ log_len)%nat -> length dst = (2 ^ log_len)%nat ->
    (exists out, kernel_add F log_len a b dst = Ok out /\ length out = length dst /\ forall i, (i < length dst)%nat -> nth i out 0 = nth i a 0 + nth i b 0) /\
    (exists out, kernel_add_assign F log_len a dst = Ok out /\ length out = length dst /\ forall i, (i < length dst)%nat -> nth i out 0 = nth i dst 0 + nth i a 0).
  Proof.
    intros LA LB LD. unfold kernel_add, kernel_add_assign. rewrite LA, LB, LD, Nat.eqb_refl. cbn [negb orb]. split; (eexists; split; [reflexivity|]);
      rewrite map_length, combine_length, ?LA, ?LB, ?LD, Nat.min_id; (split; [auto|]); intros i Hi;
      rewrite nth_map_lt with (d' := (0, 0)) by (rewrite combine_length; lia); rewrite combine_nth2 by congruence; reflexivity.
  Qed.

  (** Column [i] of a batch of rows. *)
  Definition column (rows : list (list F)) (i : nat) : list F := map (fun row => nth i row 0) rows.
  Lemma row_at_ok rows row_len i : Forall (fun row => length row = row_len) rows -> (i < row_len)%nat -> row_at F rows i = Ok (column rows i).
  Proof.
    intros H Hi. apply rmap_ok. intros row HR. rewrite Forall_forall in H. rewrite (nth_error_nth_eq row i 0) by (rewrite H; auto). reflexivity.
  Qed.

  Theorem compute_composite_correct rows row_len (output : list F) (c : circuit F) :
    Forall (fun row => length row = row_len) rows -> length output = row_len -> wf c -> n_vars c = length rows ->
    exists out, compute_composite F rows row_len output c = Ok out /\ length out = row_len /\
      forall i, (i < row_len)%nat -> evaluate c (column rows i) = Some (nth i out 0).
  Proof.
    intros HR LO W NV. unfold compute_composite. rewrite LO, NV, !Nat.eqb_refl. cbn [negb].
    rewrite rmap_ok with (g := fun i => match evaluate c (column rows i) with Some v => v | None => 0 end).
    - eexists. split; [reflexivity|]. split; [now rewrite map_length, seq_length|]. intros i Hi. rewrite nth_map_seq by auto.
      destruct (evaluate_total F c (column rows i)) as [v Hv]; auto; [unfold column; rewrite map_length; lia|]. now rewrite Hv.
    - intros i Hi. apply in_seq in Hi. rewrite (row_at_ok rows row_len) by (auto; lia). cbn [rbind].
      destruct (evaluate_total F c (column rows i)) as [v Hv]; auto; [unfold column; rewrite map_length; lia|]. now rewrite Hv.
  Qed.
  Theorem compute_composite_rejects rows row_len (output : list F) (c : circuit F) :
    length output <> row_len \/ n_vars c <> length rows -> compute_composite F rows row_len output c = Err.
  Proof.
    intros H. unfold compute_composite. destruct (Nat.eqb_spec row_len (length output)); [|reflexivity]. cbn [negb].
    destruct (Nat.eqb_spec (n_vars c) (length rows)); [|reflexivity]. lia.
  Qed.

  Theorem sum_composition_evals_correct rows row_len (c : circuit F) coeff acc (v : nat -> F) :
    Forall (fun row => length row = row_len) rows -> (forall i, (i < row_len)%nat -> evaluate c (column rows i) = Some (v i)) ->
    sum_composition_evals F rows row_len c coeff acc = Ok (acc + coeff * sumn row_len v).
  Proof.
    intros HR HV. unfold sum_composition_evals. rewrite rmap_ok with (g := v).
    - cbn [rbind]. f_equal. unfold sumn. ring.
    - intros i Hi. apply in_seq in Hi. rewrite (row_at_ok rows row_len) by (auto; lia). cbn [rbind]. now rewrite HV by lia.
  Qed.

  (** ** pairwise_product_reduce *)
  Lemma reduce_round_ok (source : list F) n : length source = (2 * n)%nat ->
    reduce_round F source n = Ok (map (fun i => nth (i * 2) source 0 * nth (i * 2 + 1) source 0) (seq 0 n)).
  Proof.
    intros L. apply rmap_ok. intros i Hi. apply in_seq in Hi. rewrite (nth_error_nth_eq source (i * 2) 0), (nth_error_nth_eq source (i * 2 + 1) 0) by lia. reflexivity.
  Qed.
  Lemma reduce_rounds_ok outs : forall k (source : list F) (input : nat -> F) s, length source = (2 ^ k)%nat -> length outs = k ->
    (forall j, (j < k)%nat -> length (nth j outs []) = (2 ^ (k - j - 1))%nat) ->
    (forall i, (i < 2 ^ k)%nat -> nth i source 0 = prodn (2 ^ s) (fun t => input (i * 2 ^ s + t)%nat)) ->
    exists r, reduce_rounds F source outs = Ok r /\ length r = k /\
      forall j, (j < k)%nat -> length (nth j r []) = (2 ^ (k - j - 1))%nat /\
        forall i, (i < 2 ^ (k - j - 1))%nat -> nth i (nth j r []) 0 = prodn (2 ^ (s + j + 1)) (fun t => input (i * 2 ^ (s + j + 1) + t)%nat).
  Proof.
    induction outs as [|o outs IH]; intros k source input s LS LO LN HS; cbn [length] in LO; subst k.
    - exists []. split; [reflexivity|]. split; [reflexivity|]. intros; lia.
    - cbn [reduce_rounds]. set (k := length outs) in *. assert (Lo : length o = (2 ^ k)%nat) by (pose proof (LN O ltac:(lia)) as Lo; cbn [nth] in Lo; rewrite Lo; f_equal; lia).
      rewrite Lo. rewrite reduce_round_ok by (rewrite LS, Nat.pow_succ_r'; lia). cbn [rbind].
      set (src := map _ (seq 0 (2 ^ k))).
      assert (HS' : forall i, (i < 2 ^ k)%nat -> nth i src 0 = prodn (2 ^ S s) (fun t => input (i * 2 ^ S s + t)%nat)).
      { intros i Hi. unfold src. rewrite nth_map_seq by auto. rewrite !HS by (rewrite Nat.pow_succ_r'; lia).
        rewrite Nat.pow_succ_r'. replace (2 * 2 ^ s)%nat with (2 ^ s + 2 ^ s)%nat by lia. rewrite prodn_split. f_equal; apply prodn_ext; intros t Ht; f_equal; lia. }
      destruct (IH k src input (S s)) as (r & E & LR & HR); auto.
      { unfold src. now rewrite map_length, seq_length. }
      { intros j Hj. specialize (LN (S j) ltac:(lia)). cbn [nth] in LN. rewrite LN. f_equal; lia. }
      rewrite E. cbn [rbind]. exists (src :: r). split; [reflexivity|]. split; [cbn; lia|]. intros [|j] Hj; cbn [nth].
      + replace (S k - 0 - 1)%nat with k by lia. split; [unfold src; now rewrite map_length, seq_length|]. intros i Hi. rewrite HS' by auto.
        replace (s + 0 + 1)%nat with (S s) by lia. reflexivity.
      + destruct (HR j ltac:(lia)) as [H1 H2]. replace (S k - S j - 1)%nat with (k - j - 1)%nat by lia. split; [auto|]. intros i Hi.
        rewrite H2 by auto. now replace (s + S j + 1)%nat with (S s + j + 1)%nat by lia.
  Qed.

  (** Round [j] holds the products of the aligned blocks of 2^(j+1) inputs; the last round is the full product. *)
  Theorem pairwise_product_reduce_correct k (input : list F) (outs : list (list F)) : (1 <= k)%nat ->
    length input = (2 ^ k)%nat -> length outs = k -> (forall j, (j < k)%nat -> length (nth j outs []) = (2 ^ (k - j - 1))%nat) ->
    exists r, pairwise_product_reduce F input outs = Ok r /\ length r = k /\
      (forall j, (j < k)%nat -> length (nth j r []) = (2 ^ (k - j - 1))%nat /\
        forall i, (i < 2 ^ (k - j - 1))%nat -> nth i (nth j r []) 0 = prodn (2 ^ (j + 1)) (fun t => nth (i * 2 ^ (j + 1) + t) input 0)) /\
      nth (k - 1) r [] = [fprod input].
  Proof.
    intros K LI LO LN. unfold pairwise_product_reduce. rewrite LI, strict_log_pow. destruct k as [|k0]; [lia|]. set (k := S k0) in *.
    rewrite LO, Nat.eqb_refl. cbn [negb].
    assert (FB : forallb (fun p => (length (snd p) =? 2 ^ (k - fst p - 1))%nat) (combine (seq 0 k) outs) = true).
    { apply forallb_forall. intros [j o] Hp. apply In_nth with (d := (O, [])) in Hp as (i & Hi & E). rewrite combine_length, seq_length, LO, Nat.min_id in Hi.
      rewrite combine_nth in E by (now rewrite seq_length). rewrite seq_nth in E by auto. injection E as <- <-. cbn [fst snd]. apply Nat.eqb_eq. now apply LN. }
    rewrite FB. destruct (reduce_rounds_ok outs k input (fun i => nth i input 0) 0) as (r & E & LR & HR); auto.
    { intros i Hi. cbn [Nat.pow]. rewrite prodn_S, prodn_0. rewrite Nat.mul_1_r, Nat.add_0_r. ring. }
    exists r. split; [exact E|]. split; [auto|]. split; [exact HR|].
    destruct (HR (k - 1)%nat ltac:(lia)) as [H1 H2]. replace (k - (k - 1) - 1)%nat with O in * by lia. cbn [Nat.pow] in H1, H2.
    destruct (nth (k - 1) r []) as [|x [|? ?]]; cbn in H1; try lia. specialize (H2 O ltac:(lia)). cbn [nth] in H2. rewrite H2. f_equal.
    rewrite Nat.add_0_l. replace (k - 1 + 1)%nat with k by lia. rewrite <- LI. unfold prodn. f_equal.
    apply list_eq_nth with (d := 0); rewrite map_length, seq_length; [reflexivity|]. intros i Hi. now rewrite nth_map_seq by auto.
  Qed.
  Theorem pairwise_product_reduce_rejects (input : list F) (outs : list (list F)) :
    (forall k, length input = (2 ^ k)%nat -> (1 <= k)%nat -> length outs = k -> exists j, (j < k)%nat /\ length (nth j outs []) <> (2 ^ (k - j - 1))%nat) ->
    pairwise_product_reduce F input outs = Err.
  Proof.
    intros H. unfold pairwise_product_reduce. destruct (strict_log (length input)) as [k|] eqn:E; [|reflexivity]. destruct k as [|k]; [reflexivity|].
    destruct (Nat.eqb_spec (length outs) (S k)) as [LO|]; [|reflexivity]. cbn [negb].
    destruct (forallb _ _) eqn:FB; [|reflexivity]. exfalso. apply strict_log_some in E. destruct (H (S k) E ltac:(lia) LO) as (j & Hj & N).
    rewrite forallb_forall in FB. specialize (FB (j, nth j outs [])). cbn [fst snd] in FB. rewrite Nat.eqb_eq in FB. apply N, FB.
    rewrite LO. replace (j, nth j outs []) with (nth j (combine (seq 0 (S k)) outs) (O, [])).
    - apply nth_In. rewrite combine_length, seq_length. lia.
    - rewrite combine_nth by (now rewrite seq_length). now rewrite seq_nth.
  Qed.
End Props.
