(** Layout of the committed message: which multilinears a message holds, and that merging multilinears produces it.
    Wrong claims about the values of those multilinears show in the value of the message. *)
Require Import Coq.setoid_ring.Ring Coq.Arith.Arith Coq.Lists.List Coq.Bool.Bool Lia.
From Verif Require Import Base.Fld Base.Lists Base.Sums Base.Poly Math.MleSpec Math.PiecewiseProps Protocol.Soundness
  Piop.MetaModel Piop.MetaProps Piop.PiopModel.
Import ListNotations.
Local Open Scope nat_scope.

(** * Specification *)
(** A batch has [nth v counts 0] multilinears with [v] variables; they are numbered in ascending order of the number of
    variables.  [above counts v] is the number of scalars of those with at least [v] variables. *)
Definition above (counts : list nat) (v : nat) : nat :=
  list_sum (map (fun u => nth u counts 0 * 2 ^ u) (seq v (length counts - v))).

(** Table of the [k]-th multilinear of the batch, which has [v] variables, in a message [W]: the last multilinear comes
    first, and the indices within a multilinear are bit reversed. *)
Definition committed_multilin {F : field} (counts : list nat) (W : nat -> F) (v k x : nat) : F :=
  W (above counts (S v) + (below counts (S v) - 1 - k) * 2 ^ v + reverse_bits x v).

(* ---------------------------------------------------------------- *)
Lemma list_sum_cons a l : list_sum (a :: l) = a + list_sum l.
Proof. reflexivity. Qed.

Lemma firstn_sum_S v : forall l, list_sum (firstn (S v) l) = list_sum (firstn v l) + nth v l 0.
Proof.
  induction v as [|v IH]; intros [|c l]; [reflexivity|cbn; lia|reflexivity|].
  rewrite !(firstn_cons _ c), !list_sum_cons, IH. cbn [nth]. lia.
Qed.

Lemma above_S counts v : above counts v = nth v counts 0 * 2 ^ v + above counts (S v).
Proof.
  unfold above. destruct (Nat.lt_ge_cases v (length counts)) as [L|L].
  - replace (length counts - v) with (S (length counts - S v)) by lia. reflexivity.
  - replace (length counts - v) with 0 by lia. replace (length counts - S v) with 0 by lia. rewrite nth_overflow by auto. reflexivity.
Qed.

Lemma above_batch counts : above counts 0 = batch_elems counts.
Proof. unfold above, batch_elems. now rewrite Nat.sub_0_r. Qed.

Lemma above_le counts u v : u <= v -> above counts v <= above counts u.
Proof. induction 1 as [|v H IH]; auto. rewrite (above_S counts v) in IH. lia. Qed.

Lemma above_div counts v : exists q, above counts v = q * 2 ^ v.
Proof.
  unfold above. generalize (length counts - v) as d. intros d. revert v. induction d as [|d IH]; intros v; [now exists 0|].
  cbn [seq map]. rewrite list_sum_cons. destruct (IH (S v)) as [q ->]. exists (nth v counts 0 + 2 * q). rewrite Nat.pow_succ_r'. ring.
Qed.

Lemma rb_lt n : forall x, reverse_bits x n < 2 ^ n.
Proof.
  induction n as [|n IH]; intros x; cbn [reverse_bits]; [cbn; lia|]. specialize (IH (x / 2)). rewrite Nat.pow_succ_r'.
  assert (x mod 2 < 2) by (apply Nat.mod_upper_bound; lia). nia.
Qed.

Lemma rb_snoc n : forall x y, x < 2 ^ n -> y < 2 -> reverse_bits (x + 2 ^ n * y) (S n) = 2 * reverse_bits x n + y.
Proof.
  induction n as [|n IH]; intros x y Hx Hy.
  - cbn in Hx. replace x with 0 by lia. cbn [reverse_bits Nat.pow]. rewrite Nat.mul_1_l, Nat.add_0_l, Nat.mod_small by auto. lia.
  - cbn [reverse_bits] in IH |- *. rewrite Nat.pow_succ_r' in *.
    assert (E1 : (x + 2 * 2 ^ n * y) mod 2 = x mod 2).
    { replace (x + 2 * 2 ^ n * y) with (x + (2 ^ n * y) * 2) by ring. apply Nat.mod_add. lia. }
    assert (E2 : (x + 2 * 2 ^ n * y) / 2 = x / 2 + 2 ^ n * y).
    { replace (x + 2 * 2 ^ n * y) with (x + (2 ^ n * y) * 2) by ring. apply Nat.div_add. lia. }
    rewrite E1, E2, IH; auto; [|apply Nat.div_lt_upper_bound; lia]. ring.
Qed.

Lemma rb_rb n : forall x, x < 2 ^ n -> reverse_bits (reverse_bits x n) n = x.
Proof.
  induction n as [|n IH]; intros x Hx; [cbn in *; lia|]. change (reverse_bits x (S n)) with (x mod 2 * 2 ^ n + reverse_bits (x / 2) n).
  replace (x mod 2 * 2 ^ n + reverse_bits (x / 2) n) with (reverse_bits (x / 2) n + 2 ^ n * (x mod 2)) by lia.
  rewrite rb_snoc; [|apply rb_lt|apply Nat.mod_upper_bound; lia]. rewrite IH by (rewrite Nat.pow_succ_r' in Hx; apply Nat.div_lt_upper_bound; lia).
  symmetry. apply Nat.div_mod. lia.
Qed.

Section Reverse.
  Variable F : field.
  Local Open Scope fld_scope.
  Add Ring Fring : (f_ring F).

  (** Reversing the indices of a table reverses the variables. *)
  Lemma mle_reverse p : forall f : nat -> F, mle (fun x => f (reverse_bits x (length p))) (rev p) = mle f p.
  Proof.
    induction p as [|r p IH]; intros f; [reflexivity|]. cbn [rev length].
    rewrite mle_app_low, mle_cons, mle_nil, mle_cons, mle_lin. rewrite rev_length.
    f_equal; f_equal.
    - rewrite <- (IH (fun x => f (2 * x)%nat)). apply mle_ext. intros x Hx. rewrite rev_length in Hx. rewrite rb_snoc by (auto; lia). f_equal. lia.
    - rewrite <- (IH (fun x => f (2 * x + 1)%nat)). apply mle_ext. intros x Hx. rewrite rev_length in Hx. rewrite rb_snoc by (auto; lia). f_equal.
  Qed.

  Lemma log2_pow2' n : Nat.log2 (2 ^ n) = n.
  Proof. apply Nat.log2_pow2. lia. Qed.

  (** The loop of swaps reads the list at reversed indices. *)
  Lemma reverse_index_bits_ok (l : list F) n : length l = (2 ^ n)%nat ->
    reverse_index_bits l = Ok (map (fun x => nth (reverse_bits x n) l 0) (seq 0 (2 ^ n))).
  Proof.
    intros L. unfold reverse_index_bits. rewrite L, log2_pow2', Nat.eqb_refl. cbn [negb]. f_equal.
    set (step := fun (s : list F) i => let j := reverse_bits i n in if (i <? j)%nat then upd (upd s i (nth j s f0)) j (nth i s f0) else s).
    assert (G : forall k, (k <= 2 ^ n)%nat -> length (fold_left step (seq 0 k) l) = (2 ^ n)%nat /\
      forall x, (x < 2 ^ n)%nat -> nth x (fold_left step (seq 0 k) l) 0 = if ((x <? k) || (reverse_bits x n <? k))%nat%bool then nth (reverse_bits x n) l 0 else nth x l 0).
    { induction k as [|k IH]; intros Hk.
      - split; [exact L|]. intros x _. reflexivity.
      - destruct IH as [IL IN]; [lia|]. rewrite seq_S, fold_left_app. cbn [fold_left Nat.add]. set (s := fold_left step (seq 0 k) l) in *.
        unfold step. cbv zeta. pose proof (rb_lt n k) as BK. assert (RK := rb_rb n k ltac:(lia)).
        assert (INJ : forall x, (x < 2 ^ n)%nat -> reverse_bits x n = k -> x = reverse_bits k n) by (intros x Hx <-; now rewrite rb_rb).
        destruct (Nat.ltb_spec k (reverse_bits k n)) as [LT|GE].
        + split; [now rewrite !upd_length|]. intros x Hx. rewrite upd_nth, upd_length, IL, upd_nth, IL.
          rewrite (proj2 (Nat.ltb_lt (reverse_bits k n) (2 ^ n))) by auto. rewrite (proj2 (Nat.ltb_lt k (2 ^ n))) by lia. rewrite !andb_true_r.
          destruct (Nat.eqb_spec x (reverse_bits k n)) as [->|N1].
          * rewrite RK. rewrite (proj2 (Nat.ltb_lt k (S k))) by lia. rewrite orb_true_r. rewrite IN by lia.
            rewrite (proj2 (Nat.ltb_ge k k)), (proj2 (Nat.ltb_ge (reverse_bits k n) k)) by lia. reflexivity.
          * destruct (Nat.eqb_spec x k) as [->|N2].
            -- rewrite (proj2 (Nat.ltb_lt k (S k))) by lia. cbn [orb]. rewrite IN by lia.
               rewrite RK. rewrite (proj2 (Nat.ltb_ge k k)), (proj2 (Nat.ltb_ge (reverse_bits k n) k)) by lia. reflexivity.
            -- rewrite IN by auto. assert (reverse_bits x n <> k) by (intros E; apply N1; now apply INJ).
               destruct (Nat.ltb_spec x k), (Nat.ltb_spec x (S k)), (Nat.ltb_spec (reverse_bits x n) k), (Nat.ltb_spec (reverse_bits x n) (S k)); try reflexivity; lia.
        + split; [exact IL|]. intros x Hx. rewrite IN by auto.
          destruct (Nat.eq_dec x k) as [->|N2].
          * rewrite (proj2 (Nat.ltb_lt k (S k))) by lia. cbn [orb]. rewrite (proj2 (Nat.ltb_ge k k)) by lia. cbn [orb].
            destruct (Nat.ltb_spec (reverse_bits k n) k); [reflexivity|]. replace (reverse_bits k n) with k by lia. reflexivity.
          * destruct (Nat.eq_dec (reverse_bits x n) k) as [E|N3].
            -- rewrite E, (proj2 (Nat.ltb_lt k (S k))), orb_true_r by lia. pose proof (INJ x Hx E) as EX.
               rewrite (proj2 (Nat.ltb_lt x k)) by lia. reflexivity.
            -- destruct (Nat.ltb_spec x k), (Nat.ltb_spec x (S k)), (Nat.ltb_spec (reverse_bits x n) k), (Nat.ltb_spec (reverse_bits x n) (S k)); try reflexivity; lia. }
    destruct (G (2 ^ n)%nat (le_n _)) as [GL GN]. apply (list_eq_nth _ _ 0); [now rewrite GL, map_length, seq_length|].
    intros x Hx. rewrite GL in Hx. rewrite GN by auto. rewrite (proj2 (Nat.ltb_lt _ _) Hx). cbn [orb]. now rewrite nth_map_seq.
  Qed.

  (** ** Merging *)
  Definition sizes (ns : list nat) : nat := list_sum (map (fun v => 2 ^ v)%nat ns).

  Lemma sizes_rev l : sizes (rev l) = sizes l.
  Proof.
    unfold sizes. induction l as [|a l IH]; auto. cbn [rev]. rewrite map_app, list_sum_app, IH. cbn [map].
    rewrite !list_sum_cons. change (list_sum []) with 0%nat. lia.
  Qed.

  Lemma merge_loop_ok (ms : list (list F)) : forall ns len, map (@length F) ms = map (fun v => 2 ^ v)%nat ns -> (sizes ns <= len)%nat ->
    exists out, merge_loop len ms = Ok out /\ length out = len /\
      forall k v, nth_error ns k = Some v -> forall x, (x < 2 ^ v)%nat ->
        nth (sizes (firstn k ns) + x) out 0 = nth (reverse_bits x v) (nth k ms []) 0.
  Proof.
    induction ms as [|e ms IH]; intros [|v0 ns] len E HL; try discriminate.
    - exists (repeat 0 len). split; [reflexivity|]. split; [apply repeat_length|]. intros [|k] v H; discriminate.
    - cbn [map] in E. injection E as E0 E. unfold sizes in HL. cbn [map] in HL. rewrite list_sum_cons in HL. fold (sizes ns) in HL.
      destruct (IH ns (len - length e)%nat E) as (rest & ER & LR & HR); [lia|].
      cbn [merge_loop]. rewrite (proj2 (Nat.ltb_ge len (length e))) by lia. rewrite (reverse_index_bits_ok e v0 E0), ER. cbn [rbind].
      eexists. split; [reflexivity|]. split; [rewrite app_length, map_length, seq_length; lia|].
      intros [|k] v Hk x Hx.
      + cbn in Hk. injection Hk as ->. cbn [firstn]. change (sizes []) with 0%nat. rewrite Nat.add_0_l, app_nth1 by (rewrite map_length, seq_length; auto).
        rewrite nth_map_seq by auto. reflexivity.
      + cbn in Hk. cbn [firstn]. unfold sizes. cbn [map]. rewrite list_sum_cons. fold (sizes (firstn k ns)).
        rewrite app_nth2; rewrite map_length, seq_length; [|lia]. replace (2 ^ v0 + sizes (firstn k ns) + x - 2 ^ v0)%nat with (sizes (firstn k ns) + x)%nat by lia.
        now apply HR.
  Qed.

  Lemma sum_by_occ (l : list nat) N : (forall u, In u l -> (u < N)%nat) ->
    list_sum (map (fun v => 2 ^ v)%nat l) = list_sum (map (fun u => count_occ Nat.eq_dec l u * 2 ^ u)%nat (seq 0 N)).
  Proof.
    induction l as [|a l IH]; intros H.
    - cbn [map list_sum fold_right count_occ]. clear. induction (seq 0 N) as [|u s IH]; auto. 
    - cbn [map]. rewrite list_sum_cons, IH by (intros; apply H; now right).
      assert (A : (a < N)%nat) by (apply H; now left). replace N with (a + S (N - S a))%nat by lia.
      rewrite !seq_app, !map_app, !list_sum_app. cbn [Nat.add seq map]. rewrite !list_sum_cons. cbn [list_sum fold_right].
      assert (E : forall s, ~ In a s -> map (fun u => count_occ Nat.eq_dec (a :: l) u * 2 ^ u)%nat s = map (fun u => count_occ Nat.eq_dec l u * 2 ^ u)%nat s).
      { intros s Hs. apply map_ext_in. intros u Hu. rewrite count_occ_cons_neq; auto. congruence. }
      rewrite (E (seq 0 a)), (E (seq (S a) (N - S a))) by (rewrite in_seq; lia). rewrite count_occ_cons_eq by reflexivity. lia.
  Qed.

  Lemma count_below (l : list nat) counts v : (forall u, nth u counts 0%nat = count_occ Nat.eq_dec l u) ->
    below counts v = length (filter (fun u => u <? v)%nat l).
  Proof.
    intros HC. unfold below. transitivity (list_sum (map (fun u => count_occ Nat.eq_dec l u) (seq 0 v))).
    - clear -HC. revert counts l HC. induction v as [|v IH]; intros counts l HC; [reflexivity|].
      rewrite seq_S, map_app, list_sum_app, <- (IH counts l HC). cbn [map Nat.add]. rewrite <- HC. cbn [list_sum fold_right].
      rewrite Nat.add_0_r. apply firstn_sum_S.
    - clear. induction l as [|a l IH]; cbn [filter].
      + cbn [count_occ length]. induction (seq 0 v); auto.
      + destruct (Nat.ltb_spec a v) as [L|L]; cbn [length]; rewrite <- IH.
        * replace v with (a + S (v - S a))%nat by lia. rewrite !seq_app, !map_app, !list_sum_app. cbn [Nat.add seq map]. rewrite !list_sum_cons. cbn [list_sum fold_right].
          assert (E : forall s, ~ In a s -> map (fun u => count_occ Nat.eq_dec (a :: l) u) s = map (fun u => count_occ Nat.eq_dec l u) s).
          { intros s Hs. apply map_ext_in. intros u Hu. rewrite count_occ_cons_neq; auto. congruence. }
          rewrite (E (seq 0 a)), (E (seq (S a) (v - S a))) by (rewrite in_seq; lia). rewrite count_occ_cons_eq by reflexivity. lia.
        * f_equal. apply map_ext_in. intros u Hu. apply in_seq in Hu. rewrite count_occ_cons_neq; auto. lia.
  Qed.

  (** C75. Merging the multilinears of a batch, in ascending order of the number of variables, yields a message that holds
      exactly those multilinears. *)
  Theorem merge_layout (ms : list (list F)) (ns counts : list nat) (len : nat) :
    map (@length F) ms = map (fun v => 2 ^ v)%nat ns -> sorted_from 0 ns ->
    (forall v, nth v counts 0%nat = count_occ Nat.eq_dec ns v) -> (sizes ns <= len)%nat ->
    exists out, merge_multilins len ms = Ok out /\ length out = len /\
      forall k v, nth_error ns k = Some v -> forall x, (x < 2 ^ v)%nat ->
        committed_multilin counts (fun i => nth i out 0) v k x = nth x (nth k ms []) 0.
  Proof.
    intros EL SN HC HL. assert (LE : length ms = length ns) by (rewrite <- (map_length (@length F)), EL; apply map_length).
    assert (PERM : sizes (rev ns) = sizes ns).
    { apply sizes_rev. }
    destruct (merge_loop_ok (rev ms) (rev ns) len) as (out & EO & LO & HO); [now rewrite !map_rev, EL|now rewrite PERM|].
    exists out. split; [exact EO|]. split; [exact LO|]. intros k v Hk x Hx.
    assert (KL : (k < length ns)%nat) by (apply nth_error_Some; congruence).
    unfold committed_multilin.
    assert (OFF : (above counts (S v) + (below counts (S v) - 1 - k) * 2 ^ v)%nat = sizes (firstn (length ns - S k) (rev ns))).
    { rewrite firstn_rev. replace (length ns - (length ns - S k))%nat with (S k) by lia.
      assert (RV : forall l, sizes (rev l) = sizes l).
      { apply sizes_rev. }
      rewrite RV.
      (* the elements before position k+1 are at most v, those after at least v *)
      assert (SPLIT : exists pre suf, ns = pre ++ suf /\ length pre = S k /\ (forall u, In u pre -> (u <= v)%nat) /\ (forall u, In u suf -> (v <= u)%nat)).
      { clear -SN Hk. revert k SN Hk. generalize 0%nat as c. induction ns as [|a ns IH]; intros c [|k] SN Hk; try discriminate.
        - cbn in Hk. injection Hk as ->. cbn in SN. exists [v], ns. split; [reflexivity|]. split; [reflexivity|]. split; [intros u [<-|[]]; lia|].
          destruct SN as [_ SN]. clear -SN. revert v SN. induction ns as [|b ns IH]; intros v SN u Hu; [destruct Hu|]. cbn in SN. destruct SN as [A B]. destruct Hu as [<-|Hu]; [auto|]. specialize (IH b B u Hu). lia.
        - cbn in Hk. cbn in SN. destruct SN as [A B]. destruct (IH a k B Hk) as (pre & suf & -> & LP & HP & HS).
          exists (a :: pre), suf. split; [reflexivity|]. split; [cbn; lia|]. split; [|exact HS]. intros u [<-|Hu]; [|auto].
          destruct pre as [|p pre]; [cbn in LP; lia|]. specialize (HP p (or_introl eq_refl)). cbn in B. lia. }
      destruct SPLIT as (pre & suf & E & LP & HP & HS). rewrite E at 1. rewrite skipn_app, LP, Nat.sub_diag, <- LP, skipn_all. cbn [app skipn].
      assert (LC : forall u, (length counts <= u)%nat -> ~ In u ns).
      { intros u Hu HI. apply (count_occ_In Nat.eq_dec) in HI. rewrite <- HC, nth_overflow in HI by auto. lia. }
      unfold sizes. rewrite (sum_by_occ suf (length counts)).
      2:{ intros u Hu. destruct (Nat.lt_ge_cases u (length counts)) as [|G]; auto. exfalso. apply (LC u G). rewrite E. apply in_app_iff. now right. }
      assert (VL : (v < length counts)%nat).
      { destruct (Nat.lt_ge_cases v (length counts)) as [|G]; auto. exfalso. apply (LC v G). apply nth_error_In in Hk. exact Hk. }
      replace (length counts) with (v + S (length counts - S v))%nat by lia. rewrite !seq_app, !map_app, !list_sum_app. cbn [Nat.add seq map]. rewrite list_sum_cons. cbn [list_sum fold_right].
      assert (Z : list_sum (map (fun u => count_occ Nat.eq_dec suf u * 2 ^ u)%nat (seq 0 v)) = 0%nat).
      { assert (G : forall s, (forall u, In u s -> (u < v)%nat) -> list_sum (map (fun u => count_occ Nat.eq_dec suf u * 2 ^ u)%nat s) = 0%nat).
        { induction s as [|u s IH]; intros Hs; [reflexivity|]. cbn [map]. rewrite list_sum_cons, IH by (intros; apply Hs; now right).
          rewrite (proj1 (count_occ_not_In Nat.eq_dec suf u)); [lia|]. intros HI. specialize (HS u HI). specialize (Hs u (or_introl eq_refl)). lia. }
        apply G. intros u Hu. apply in_seq in Hu. lia. }
      rewrite Z. rewrite (count_below ns counts (S v) HC), E, filter_app, app_length.
      assert (FP : filter (fun u => u <? S v)%nat pre = pre).
      { clear -HP. induction pre as [|a pre IH]; [reflexivity|]. cbn [filter]. rewrite (proj2 (Nat.ltb_lt a (S v))) by (specialize (HP a (or_introl eq_refl)); lia). f_equal. apply IH. intros; apply HP; now right. }
      assert (FS : length (filter (fun u => u <? S v)%nat suf) = count_occ Nat.eq_dec suf v).
      { clear -HS. induction suf as [|a suf IH]; [reflexivity|]. cbn [filter count_occ]. specialize (IH (fun u H => HS u (or_intror H))). pose proof (HS a (or_introl eq_refl)).
        destruct (Nat.ltb_spec a (S v)), (Nat.eq_dec a v); cbn [length]; lia. }
      rewrite FP, FS, LP. replace (S k + count_occ Nat.eq_dec suf v - 1 - k)%nat with (count_occ Nat.eq_dec suf v) by lia.
      assert (EA : above counts (S v) = list_sum (map (fun u => count_occ Nat.eq_dec suf u * 2 ^ u)%nat (seq (S v) (length counts - S v)))).
      { unfold above. f_equal. apply map_ext_in. intros u Hu. apply in_seq in Hu. rewrite HC, E, count_occ_app.
        rewrite (proj1 (count_occ_not_In Nat.eq_dec pre u)); [reflexivity|]. intros HI. specialize (HP u HI). lia. }
      rewrite EA. lia. }
    rewrite OFF. assert (RK : nth_error (rev ns) (length ns - S k) = Some v).
    { rewrite (nth_error_nth_eq _ _ 0%nat) by (rewrite rev_length; lia). f_equal. rewrite rev_nth by lia. replace (length ns - S (length ns - S k))%nat with k by lia. now apply nth_error_nth. }
    rewrite (HO _ v RK) by apply rb_lt. rewrite rb_rb by auto. f_equal. rewrite rev_nth by lia. f_equal. lia.
  Qed.
End Reverse.

(** ** Wrong evaluations *)
Section Mismatch.
  Variable F : field.
  Local Open Scope fld_scope.
  Add Ring Fring2 : (f_ring F).
  Variables (counts : list nat) (W : nat -> F) (n : nat).
  Hypothesis FITS : (batch_elems counts <= 2 ^ n)%nat.

  (** The message whose multilinears with [v] variables are constants [lev v], up to [i] variables. *)
  Definition consts (lev : nat -> list F) (v : nat) : list (nat -> F) := map (fun a _ => a) (lev v).
  Definition vb (lev : nat -> list F) (i : nat) : list F := values_below F (consts lev) i.

  (** Some block of [2^g] scalars, counted from [off], has another value at the challenges than the claimed ones. *)
  Definition differs (g off : nat) (T : list F) (chal : list F) : Prop :=
    exists b, (off + (b + 1) * 2 ^ g <= 2 ^ n)%nat /\ mle (fun k => W (off + b * 2 ^ g + k) - nth (b * 2 ^ g + k) T 0) chal <> 0.

  Lemma mle_sub (f g : nat -> F) p : mle (fun x => f x - g x) p = mle f p - mle g p.
  Proof.
    transitivity (1 * mle f p + (0 - 1) * mle g p); [|ring]. rewrite <- mle_lin. apply mle_ext. intros. ring.
  Qed.
  Lemma mle_cst (c : F) p : mle (fun _ => c) p = c.
  Proof. unfold mle. rewrite sumn_scale, eqw_sum. ring. Qed.

  Lemma vb_S lev i : vb lev (S i) = flat_map (table_list F i) (consts lev i) ++ vb lev i.
  Proof. reflexivity. Qed.

  Lemma differs_skip i lev chal : length chal = i -> length (lev i) = nth i counts 0%nat ->
    differs i (above counts i) (vb lev i) chal -> differs i (above counts (S i)) (vb lev (S i)) chal.
  Proof.
    intros LC LL (b & HB & HM). exists (b + nth i counts 0)%nat. rewrite (above_S counts i) in HB, HM. split; [lia|].
    intros E. apply HM. etransitivity; [|exact E]. apply mle_ext. intros k Hk. rewrite vb_S. rewrite app_nth2; rewrite tab_length; unfold consts; rewrite map_length, LL; [|lia].
    rewrite Nat.mul_add_distr_r; f_equal; f_equal; lia.
  Qed.

  Lemma differs_new i lev chal j : length chal = i -> length (lev i) = nth i counts 0%nat -> (j < nth i counts 0)%nat ->
    nth j (lev i) 0 <> mle (fun k => W (above counts (S i) + j * 2 ^ i + k)) chal ->
    differs i (above counts (S i)) (vb lev (S i)) chal.
  Proof.
    intros LC LL HJ NE. exists j. split.
    - rewrite <- above_batch in FITS. pose proof (above_le counts 0 i ltac:(lia)). rewrite (above_S counts i) in H.
      assert ((j + 1) * 2 ^ i <= nth i counts 0 * 2 ^ i)%nat by (apply Nat.mul_le_mono_r; lia). lia.
    - intros E. apply NE. rewrite mle_sub in E.
      assert (EC : mle (fun k => nth (j * 2 ^ i + k) (vb lev (S i)) 0) chal = nth j (lev i) 0).
      { rewrite <- (mle_cst (nth j (lev i) 0) chal). apply mle_ext. intros k Hk. rewrite LC in Hk. rewrite vb_S.
        assert (LT : length (consts lev i) = nth i counts 0%nat) by (unfold consts; now rewrite map_length).
        rewrite app_nth1 by (rewrite tab_length, LT; nia). rewrite tab_nth by (auto; lia).
        unfold consts. rewrite (nth_map_lt _ _ _ _ 0) by lia. reflexivity. }
      rewrite EC in E. set (a := nth j (lev i) 0) in *. symmetry.
      set (w := mle _ chal) in *. transitivity (a + (w - a)); [ring|]. rewrite E. ring.
  Qed.

  Lemma mle_last (f : nat -> F) p r : mle f (p ++ [r]) = (1 - r) * mle f p + r * mle (fun x => f (x + 2 ^ length p)%nat) p.
  Proof.
    rewrite mle_app_low, mle_cons, mle_nil. f_equal; f_equal; apply mle_ext; intros; f_equal; lia.
  Qed.

  Lemma differs_round i T chal : length chal = i -> (S i <= n)%nat -> differs i (above counts (S i)) T chal ->
    exists bad, at_most 1 bad /\ forall r, bad r = false -> differs (S i) (above counts (S i)) T (chal ++ [r]).
  Proof.
    intros LC LN (b & HB & HM). set (off := above counts (S i)) in *.
    set (blk := fun c : nat => mle (fun k => W (off + c * 2 ^ i + k) - nth (c * 2 ^ i + k) T 0) chal).
    pose proof (Nat.div_mod b 2 ltac:(lia)) as DM. pose proof (Nat.mod_upper_bound b 2 ltac:(lia)) as DB. set (h := (b / 2)%nat) in *.
    set (u := blk (2 * h)%nat). set (w := blk (2 * h + 1)%nat).
    exists (fun r => feqb (peval [u; w - u] r) 0). split.
    - apply roots_at_most; [cbn; lia|]. destruct (feq_dec F u 0) as [E|N]; [|exists 0%nat; exact N]. exists 1%nat. cbn [nth]. rewrite E.
      intros E2. apply HM. fold (blk b). assert (b mod 2 = 0 \/ b mod 2 = 1)%nat as [Z|Z] by lia.
      + replace b with (2 * h)%nat by lia. exact E.
      + replace b with (2 * h + 1)%nat by lia. fold w. transitivity (w - 0); [ring|exact E2].
    - intros r Hr. exists h. destruct (above_div counts (S i)) as [q EQ]. fold off in EQ. split.
      + rewrite EQ in HB |- *. replace n with ((n - S i) + S i)%nat in HB |- * by lia. rewrite Nat.pow_add_r in HB |- *. rewrite Nat.pow_succ_r' in HB |- *.
        set (K := (2 ^ (n - S i))%nat) in *. pose proof (pow2_gt0 i) as P. set (p := (2 ^ i)%nat) in *.
        assert (A : (2 * q + b + 1 <= 2 * K)%nat) by (apply (Nat.mul_le_mono_pos_r _ _ p); lia).
        assert (q + h + 1 <= K)%nat by lia. replace (q * (2 * p) + (h + 1) * (2 * p))%nat with ((q + h + 1) * (2 * p))%nat by ring. apply Nat.mul_le_mono_r. lia.
      + rewrite mle_last, LC. intros E. rewrite <- E in Hr.
        assert (X : peval [u; w - u] r = (1 - r) * u + r * w) by (cbn; ring).
        rewrite X in Hr. unfold u, w, blk in Hr.
        match type of Hr with feqb (?r1 * ?a1 + ?r2 * ?a2) (_ * ?b1 + _ * ?b2) = false =>
          assert (Q1 : a1 = b1) by (apply mle_ext; intros; rewrite Nat.pow_succ_r'; f_equal; f_equal; ring);
          assert (Q2 : a2 = b2) by (apply mle_ext; intros; rewrite Nat.pow_succ_r'; f_equal; f_equal; ring) end.
        rewrite Q1, Q2, feqb_refl in Hr. discriminate.
  Qed.

  Lemma differs_end T chal : length chal = n -> differs n (above counts (S n)) T chal -> mle W chal <> mle (fun x => nth x T 0) chal.
  Proof.
    intros LC (b & HB & HM) E. pose proof (pow2_gt0 n) as P.
    assert (Z : (above counts (S n) = 0 /\ b = 0)%nat).
    { destruct b as [|b]; [lia|]. exfalso. cbn [Nat.mul Nat.add] in HB. lia. }
    destruct Z as [Z1 Z2]. apply HM. rewrite Z1, Z2, mle_sub. cbn [Nat.mul Nat.add]. transitivity (mle W chal - mle (fun x => nth x T 0) chal); [reflexivity|]. rewrite E. ring.
  Qed.
End Mismatch.
