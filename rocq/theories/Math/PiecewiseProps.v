(** C21: piecewise multilinears. *)
Require Import Coq.NArith.NArith Coq.setoid_ring.Ring Coq.Arith.Arith Coq.Lists.List Coq.Bool.Bool Lia.
From Verif Require Import Base.Fld Base.Lists Base.Sums Math.MleSpec Math.MleModel Math.MleProofs
  Math.UnivariateModel Math.PiecewiseModel Field.Examples.
Import ListNotations.
Local Close Scope N_scope.
Local Open Scope nat_scope.

Lemma div_ceil_unique a b q : 0 < b -> a <= q * b -> q * b < a + b -> div_ceil a b = q.
Proof.
  intros Hb H1 H2. unfold div_ceil. symmetry. apply (Nat.div_unique _ _ _ (a + b - 1 - q * b)); [|nia].
  assert (b * 0 <= 1) by lia. lia.
Qed.

Lemma div_ceil_bounds a b : 0 < b -> a <= div_ceil a b * b /\ div_ceil a b * b < a + b.
Proof.
  intros Hb. unfold div_ceil. pose proof (Nat.div_mod (a + b - 1) b). pose proof (Nat.mod_upper_bound (a + b - 1) b).
  set (q := (a + b - 1) / b) in *. rewrite (Nat.mul_comm q b). lia.
Qed.

Section Props.
  Variable F : field.
  Local Open Scope fld_scope.
  Add Ring Fring : (f_ring F).

  (* ---------------------------------------------------------------- *)
  (** * Specification *)
  (** A family of pieces: [nth i levels] lists the tables of the pieces with [i] variables. *)
  Definition table_list (i : nat) (f : nat -> F) : list F := map f (seq 0 (2 ^ i)).

  (** Values of the pieces, largest number of variables first. *)
  Fixpoint values_below (levels : nat -> list (nat -> F)) (m : nat) : list F :=
    match m with
    | O => []
    | S i => flat_map (table_list i) (levels i) ++ values_below levels i
    end.

  (** Evaluations of the pieces at the prefixes of [point], in the same order. *)
  Fixpoint evals_below (levels : nat -> list (nat -> F)) (point : list F) (m : nat) : list F :=
    match m with
    | O => []
    | S i => map (fun f => mle f (firstn i point)) (levels i) ++ evals_below levels point i
    end.

  (* ---------------------------------------------------------------- *)
  Lemma fold_segment_ok (seg : list F) z : exists s, fold_segment seg z = Some s /\ length s = length seg /\
    forall i, (i < length seg - length seg / 2)%nat ->
      nth i s 0 = (1 - z) * nth (2 * i) seg 0 + z * nth (2 * i + 1) seg 0.
  Proof.
    unfold fold_segment. set (n := length seg). set (h := (n / 2)%nat).
    assert (Hh : (n = 2 * h + n mod 2)%nat) by (apply Nat.div_mod; lia).
    assert (Hm : (n mod 2 < 2)%nat) by (apply Nat.mod_upper_bound; lia).
    assert (G : forall k, (k <= h)%nat -> exists s,
      ofold (fun s i => do a <- nth_error s (2 * i)%nat; do b <- nth_error s (2 * i + 1)%nat;
                              Some (upd s i (extrapolate_line a b z))) (seq 0 k) seg = Some s /\
      length s = n /\ forall i, (i < n)%nat -> nth i s 0 = if (i <? k)%nat then (1 - z) * nth (2 * i) seg 0 + z * nth (2 * i + 1) seg 0 else nth i seg 0).
    { induction k as [|k IH]; intros Hk.
      - exists seg. auto.
      - destruct IH as [s [E [L N]]]; [lia|]. rewrite seq_S, ofold_app, E. cbn [obind ofold Nat.add].
        rewrite (nth_error_nth_eq s _ 0) by lia. cbn [obind].
        rewrite (nth_error_nth_eq s _ 0) by lia. cbn [obind].
        eexists. split; [reflexivity|]. split; [now rewrite upd_length|]. intros i Hi.
        rewrite upd_nth, L, (proj2 (Nat.ltb_lt k n)) by lia. rewrite andb_true_r.
        destruct (Nat.eqb_spec i k) as [->|NE].
        + rewrite (proj2 (Nat.ltb_lt k (S k))) by lia. rewrite !N by lia.
          rewrite (proj2 (Nat.ltb_ge (2 * k) k)), (proj2 (Nat.ltb_ge (2 * k + 1) k)) by lia.
          unfold extrapolate_line. ring.
        + rewrite N by auto. destruct (Nat.ltb_spec i k), (Nat.ltb_spec i (S k)); auto; lia. }
    destruct (G h (le_n _)) as [s [E [L N]]]. rewrite E. cbn [obind].
    destruct (Nat.eqb_spec (n mod 2) 1) as [O|O].
    - rewrite (nth_error_nth_eq s _ 0) by lia. cbn [obind]. eexists. split; [reflexivity|].
      split; [now rewrite upd_length|]. intros i Hi.
      rewrite upd_nth, L, (proj2 (Nat.ltb_lt h n)) by lia. rewrite andb_true_r.
      destruct (Nat.eqb_spec i h) as [->|NE].
      + rewrite N by lia. rewrite (nth_overflow seg 0 (n := 2 * h + 1)) by (fold n; lia).
        destruct (Nat.ltb_spec (2 * h) h).
        * lia.
        * unfold extrapolate_line. ring.
      + rewrite N by lia. rewrite (proj2 (Nat.ltb_lt i h)) by lia. reflexivity.
    - exists s. split; auto. split; auto. intros i Hi. rewrite N by lia.
      rewrite (proj2 (Nat.ltb_lt i h)) by lia. reflexivity.
  Qed.

  Section Loop.
    Variable levels : nat -> list (nat -> F).
    Variable point : list F.
    Let tl (i : nat) := values_below levels i.
    Let pe (i : nat) := map (fun f => mle f (firstn i point)) (levels i).

    Definition nblocks (i : nat) : nat := div_ceil (length (tl i)) (2 ^ i).
    Definition block (i b : nat) : F := mle (fun k => nth (b * 2 ^ i + k) (tl i) 0) (firstn i point).
    Definition blocks (i : nat) : list F := map (block i) (seq 0 (nblocks i)).

    Fixpoint hd (i d : nat) : list F :=
      match d with O => [] | S d => pe (i + d) ++ hd i d end.

    Lemma hd_S i d : hd i (S d) = hd (S i) d ++ pe i.
    Proof.
      revert i. induction d as [|d IH]; intros i.
      - cbn [hd]. now rewrite Nat.add_0_r, app_nil_r.
      - change (hd i (S (S d))) with (pe (i + S d) ++ hd i (S d)). rewrite IH. cbn [hd].
        rewrite <- app_assoc. do 2 f_equal. lia.
    Qed.

    Lemma hd_all i d : evals_below levels point (i + d) = hd i d ++ evals_below levels point i.
    Proof.
      induction d as [|d IH].
      - now rewrite Nat.add_0_r.
      - rewrite Nat.add_succ_r. cbn [evals_below hd]. rewrite IH, <- app_assoc. reflexivity.
    Qed.

    Lemma tab_length i fs : length (flat_map (table_list i) fs) = (length fs * 2 ^ i)%nat.
    Proof.
      induction fs as [|f fs IH]; cbn [flat_map length]; auto. rewrite app_length, IH.
      unfold table_list. rewrite map_length, seq_length. lia.
    Qed.

    Lemma tab_nth i fs b k d : (b < length fs)%nat -> (k < 2 ^ i)%nat ->
      nth (b * 2 ^ i + k) (flat_map (table_list i) fs) d = nth b fs (fun _ => 0) k.
    Proof.
      revert b. induction fs as [|f fs IH]; intros b Hb Hk; [cbn in Hb; lia|]. cbn [flat_map].
      assert (Lt : length (table_list i f) = (2 ^ i)%nat) by (unfold table_list; now rewrite map_length, seq_length).
      destruct b as [|b].
      - rewrite app_nth1 by (rewrite Lt; lia). unfold table_list. cbn [Nat.mul Nat.add nth].
        now rewrite nth_map_seq.
      - rewrite app_nth2 by (rewrite Lt; lia). rewrite Lt.
        replace (S b * 2 ^ i + k - 2 ^ i)%nat with (b * 2 ^ i + k)%nat by lia. cbn [nth]. apply IH; auto.
        cbn in Hb. lia.
    Qed.

    (** The blocks of size [2^i] after the pieces with [i] variables joined the tail. *)
    Lemma joined_nth i b d : (i <= length point)%nat -> (b < length (levels i) + nblocks i)%nat ->
      nth b (pe i ++ blocks i) d = mle (fun k => nth (b * 2 ^ i + k) (tl (S i)) 0) (firstn i point).
    Proof.
      intros Hi Hb. unfold tl. cbn [values_below]. fold (tl i).
      assert (Lf : length (firstn i point) = i) by (rewrite firstn_length; lia).
      assert (Lp : length (pe i) = length (levels i)) by (unfold pe; now rewrite map_length).
      destruct (Nat.lt_ge_cases b (length (levels i))) as [L|L].
      - rewrite app_nth1 by lia. unfold pe. rewrite (nth_map_lt _ _ _ _ (fun _ => 0)) by auto.
        apply mle_ext. intros k Hk. rewrite Lf in Hk. rewrite app_nth1.
        + symmetry. now apply tab_nth.
        + rewrite tab_length. assert ((b + 1) * 2 ^ i <= length (levels i) * 2 ^ i)%nat by (apply Nat.mul_le_mono_r; lia). lia.
      - rewrite app_nth2 by lia. rewrite Lp. unfold blocks. rewrite nth_map_seq by lia. unfold block.
        apply mle_ext. intros k Hk. rewrite app_nth2.
        + rewrite tab_length. f_equal. rewrite Nat.mul_sub_distr_r.
          assert (length (levels i) * 2 ^ i <= b * 2 ^ i)%nat by (apply Nat.mul_le_mono_r; lia). lia.
        + rewrite tab_length. assert (length (levels i) * 2 ^ i <= b * 2 ^ i)%nat by (apply Nat.mul_le_mono_r; lia). lia.
    Qed.

    Lemma nblocks_S i : let n := (length (levels i) + nblocks i)%nat in nblocks (S i) = (n - n / 2)%nat.
    Proof.
      cbv zeta. unfold nblocks. unfold tl. cbn [values_below]. rewrite app_length, tab_length. fold (tl i).
      set (c := length (levels i)). set (t := length (tl i)). set (p := (2 ^ i)%nat).
      assert (0 < p)%nat by apply pow2_gt0.
      destruct (div_ceil_bounds t p) as [B1 B2]; auto. set (q := div_ceil t p) in *.
      set (n := (c + q)%nat).
      assert (E : n = (2 * (n / 2) + n mod 2)%nat) by (apply Nat.div_mod; lia).
      assert (n mod 2 < 2)%nat by (apply Nat.mod_upper_bound; lia).
      rewrite Nat.pow_succ_r'. fold p.
      apply div_ceil_unique; [lia| |].
      - replace ((n - n / 2) * (2 * p))%nat with ((2 * (n - n / 2)) * p)%nat by ring.
        assert (n * p <= 2 * (n - n / 2) * p)%nat by (apply Nat.mul_le_mono_r; lia).
        unfold n in H1 at 1. rewrite Nat.mul_add_distr_r in H1. lia.
      - replace ((n - n / 2) * (2 * p))%nat with ((2 * (n - n / 2)) * p)%nat by ring.
        assert (2 * (n - n / 2) * p <= (n + 1) * p)%nat by (apply Nat.mul_le_mono_r; lia).
        unfold n in H1 at 3. rewrite !Nat.mul_add_distr_r in H1. lia.
    Qed.

    Lemma block_S i b : (S i <= length point)%nat ->
      block (S i) b =
      (1 - nth i point 0) * mle (fun k => nth ((2 * b) * 2 ^ i + k) (tl (S i)) 0) (firstn i point) +
      nth i point 0 * mle (fun k => nth ((2 * b + 1) * 2 ^ i + k) (tl (S i)) 0) (firstn i point).
    Proof.
      intros Hi. unfold block.
      assert (E : firstn (S i) point = firstn i point ++ [nth i point 0]).
      { clear - Hi. revert i Hi. induction point as [|a l IH]; intros [|i] Hi; cbn in *; try lia; auto.
        f_equal. apply IH. lia. }
      assert (Lf : length (firstn i point) = i) by (rewrite firstn_length; lia).
      rewrite E, mle_app_low, mle_cons, mle_nil, Lf.
      f_equal; f_equal; apply mle_ext; intros k Hk; f_equal; rewrite Nat.pow_succ_r'; ring.
    Qed.

    Variable M : nat.
    Hypothesis HM : (length point <= M)%nat.

    Lemma piece_loop_ok (npbv : list nat) : (forall i, nth i npbv 0%nat = length (levels i)) ->
      forall rest i junk,
      (i + length rest = length point)%nat -> rest = skipn i point ->
      exists out, piece_loop npbv i rest (hd i (M - i) ++ blocks i ++ junk)
        (length (hd i (M - i)) + nblocks i) (nblocks i) = Some (hd (length point) (M - length point) ++ blocks (length point) ++ out).
    Proof.
      intros HN. induction rest as [|r rest IH]; intros i junk Hi HR.
      - cbn [length] in Hi. rewrite Nat.add_0_r in Hi. subst i. cbn [piece_loop]. eauto.
      - cbn [piece_loop length] in *. rewrite HN.
        set (n := (nblocks i + length (levels i))%nat).
        assert (Hr : r = nth i point 0).
        { pose proof (nth_skipn' i point 0 0) as Q. rewrite <- HR, Nat.add_0_r in Q. exact Q. }
        assert (HR' : rest = skipn (S i) point).
        { pose proof (skipn_add 1 i point) as Q. rewrite <- HR in Q. cbn [skipn] in Q. rewrite Q. f_equal. lia. }
        replace (M - i)%nat with (S (M - S i)) by lia. rewrite hd_S.
        set (H := hd (S i) (M - S i)).
        assert (Lp : length (pe i) = length (levels i)) by (unfold pe; now rewrite map_length).
        assert (Lb : length (blocks i) = nblocks i) by (unfold blocks; now rewrite map_length, seq_length).
        rewrite !app_length, Lp.
        replace (length H + length (levels i) + nblocks i)%nat with (length H + n)%nat by (unfold n; lia).
        assert (CL : (n <=? length H + n) && (length H + n <=? length H + length (levels i) + (length (blocks i) + length junk)) = true).
        { rewrite Lb. apply andb_true_iff. split; apply Nat.leb_le; unfold n; lia. }
        rewrite CL. replace (length H + n - n)%nat with (length H) by lia.
        rewrite <- (app_assoc H (pe i)).
        rewrite skipn_app, skipn_all, Nat.sub_diag. cbn [skipn app].
        set (seg := pe i ++ blocks i).
        assert (Ls : length seg = n) by (unfold seg, n; rewrite app_length; lia).
        replace (pe i ++ blocks i ++ junk) with (seg ++ junk) by (unfold seg; now rewrite <- app_assoc).
        rewrite (firstn_app n), Ls, Nat.sub_diag, firstn_O, app_nil_r, <- Ls, firstn_all.
        destruct (fold_segment_ok seg r) as [s [Es [Lss Ns]]]. rewrite Es. cbn [obind].
        rewrite firstn_app, firstn_all, Nat.sub_diag, firstn_O, app_nil_r.
        rewrite skipn_app, (skipn_all2 H) by lia. cbn [app].
        replace (length H + length seg - length H)%nat with (length seg) by lia.
        rewrite skipn_app, skipn_all, Nat.sub_diag. cbn [skipn app].
        rewrite Ls in *.
        assert (NB : nblocks (S i) = (n - n / 2)%nat).
        { rewrite nblocks_S. unfold n. rewrite (Nat.add_comm (nblocks i)). reflexivity. }
        assert (Hd2 : (n / 2 <= n)%nat) by (apply Nat.div_le_upper_bound; lia).
        assert (Esplit : s = blocks (S i) ++ skipn (n - n / 2) s).
        { rewrite <- (firstn_skipn (n - n / 2) s) at 1. f_equal.
          apply (list_eq_nth _ _ 0).
          - rewrite firstn_length, Lss. unfold blocks. rewrite map_length, seq_length, NB. lia.
          - intros b Hb. rewrite firstn_length, Lss in Hb. rewrite nth_firstn_lt by lia. rewrite Ns by lia.
            unfold blocks. rewrite nth_map_seq by lia. rewrite block_S by lia. rewrite <- Hr.
            assert (Hn : n = (2 * (n / 2) + n mod 2)%nat) by (apply Nat.div_mod; lia).
            assert (n mod 2 < 2)%nat by (apply Nat.mod_upper_bound; lia).
            f_equal; f_equal.
            + apply joined_nth; [lia|]. unfold n in *. lia.
            + destruct (Nat.lt_ge_cases (2 * b + 1) n).
              * apply joined_nth; [lia|]. unfold n in *. lia.
              * rewrite nth_overflow by lia. symmetry.
                unfold mle. apply sumn_zero. intros k Hk.
                rewrite nth_overflow; [ring|]. unfold tl. cbn [values_below]. rewrite app_length, tab_length. fold (tl i).
                pose proof (proj1 (div_ceil_bounds (length (tl i)) (2 ^ i) (pow2_gt0 i))) as B. fold (nblocks i) in B.
                assert (n * 2 ^ i <= (2 * b + 1) * 2 ^ i)%nat by (apply Nat.mul_le_mono_r; lia).
                unfold n in H2. rewrite Nat.mul_add_distr_r in H2. lia. }
        rewrite Esplit, <- app_assoc, <- NB.
        replace (length H + n - n / 2)%nat with (length H + nblocks (S i))%nat by (rewrite NB; lia).
        apply (IH (S i)); [lia|auto].
    Qed.
  End Loop.

  Lemma values_length levels m : length (values_below levels m) = list_sum (map (fun i => (length (levels i) * 2 ^ i)%nat) (seq 0 m)).
  Proof.
    induction m as [|m IH]; [reflexivity|]. cbn [values_below]. rewrite app_length, tab_length, IH, seq_S, map_app, list_sum_app.
    cbn [map list_sum fold_right Nat.add]. lia.
  Qed.

  Lemma evals_length levels point m : length (evals_below levels point m) = list_sum (map (fun i => length (levels i)) (seq 0 m)).
  Proof.
    induction m as [|m IH]; [reflexivity|]. cbn [evals_below]. rewrite app_length, map_length, IH, seq_S, map_app, list_sum_app.
    cbn [map list_sum fold_right Nat.add]. lia.
  Qed.

  Lemma below_ext levels m k : (forall i, (m <= i)%nat -> levels i = []) ->
    values_below levels (m + k) = values_below levels m /\
    forall point, evals_below levels point (m + k) = evals_below levels point m.
  Proof.
    intros H. induction k as [|k [IH1 IH2]].
    - rewrite Nat.add_0_r. auto.
    - rewrite Nat.add_succ_r. cbn [values_below evals_below]. rewrite H by lia. cbn. auto.
  Qed.

  (** C21. [levels] lists, for each number of variables, the tables of the pieces; the arguments are
      the counts and the evaluations of the pieces at prefixes of the point. *)
  Theorem piecewise_correct (point : list F) (levels : list (list (nat -> F))) :
    let lev := fun i => nth i levels [] in
    let concat := values_below lev (length levels) in
    (0 < length concat <= 2 ^ length point)%nat ->
    evaluate_piecewise_multilinear point (map (@length _) levels) (evals_below lev point (length levels))
    = Ok (mle (fun x => nth x concat 0) point).
  Proof.
    intros lev concat HC. set (m := length levels) in *. set (n := length point) in *.
    set (npbv := map (@length _) levels).
    assert (HN : forall i, nth i npbv 0%nat = length (lev i)).
    { intros i. unfold npbv, lev. apply (map_nth (@length _) levels []). }
    assert (Ln : length npbv = m) by (unfold npbv; now rewrite map_length).
    unfold evaluate_piecewise_multilinear. fold n. rewrite Ln.
    assert (E1 : list_sum (map (fun i => (nth i npbv 0 * 2 ^ i)%nat) (seq 0 m)) = length concat).
    { unfold concat. rewrite values_length. f_equal. apply map_ext. intros i. now rewrite HN. }
    rewrite E1, (proj2 (Nat.ltb_ge _ _)) by lia.
    assert (E2 : list_sum npbv = length (evals_below lev point m)).
    { rewrite evals_length. f_equal. apply (list_eq_nth _ _ 0%nat); [now rewrite map_length, seq_length|].
      intros i Hi. rewrite Ln in Hi. rewrite nth_map_seq by auto. apply HN. }
    rewrite E2, Nat.eqb_refl. cbn [negb].
    set (M := Nat.max m n).
    assert (LO : forall i, (m <= i)%nat -> lev i = []) by (intros; unfold lev; now apply nth_overflow).
    destruct (below_ext lev m (M - m) LO) as [V1 V2].
    replace (m + (M - m))%nat with M in * by lia.
    assert (EE : evals_below lev point m = hd lev point 0 (M - 0) ++ blocks lev point 0 ++ []).
    { rewrite <- V2. pose proof (hd_all lev point 0 M) as Q. cbn [Nat.add evals_below] in Q. rewrite Q, Nat.sub_0_r.
      f_equal. }
    destruct (piece_loop_ok lev point M ltac:(unfold M, n; lia) npbv HN point 0 []) as [out Eo]; auto.
    rewrite <- EE in Eo. replace (length (hd lev point 0 (M - 0)) + nblocks lev 0)%nat with (length (evals_below lev point m)) in Eo.
    2:{ rewrite EE, !app_length. unfold blocks. rewrite map_length, seq_length. cbn [length]. lia. }
    change (nblocks lev 0) with 0%nat in Eo. rewrite Eo. fold n. cbn [obind].
    assert (VS : forall d, length (values_below lev (n + d)) =
       (length (values_below lev n) + list_sum (map (fun i => length (lev i) * 2 ^ i) (seq n d)))%nat).
    { intros d. rewrite !values_length, seq_app, map_app, list_sum_app. reflexivity. }
    destruct (Nat.eq_dec (length (values_below lev n)) (length concat)) as [Z|NZ].
    - (* no piece with n or more variables *)
      assert (HZ : forall i, (n <= i)%nat -> lev i = []).
      { intros i Hi. destruct (Nat.lt_ge_cases i m) as [L|L]; [|auto].
        pose proof (VS (M - n)%nat) as Q. replace (n + (M - n))%nat with M in Q by lia. rewrite V1 in Q.
        fold concat in Q. rewrite Z in Q.
        assert (Q' : list_sum (map (fun i => length (lev i) * 2 ^ i)%nat (seq n (M - n))) = 0%nat) by lia.
        assert (In (length (lev i) * 2 ^ i)%nat (map (fun i => length (lev i) * 2 ^ i)%nat (seq n (M - n)))).
        { apply in_map_iff. exists i. split; auto. apply in_seq. lia. }
        assert (G : forall (l : list nat) x, In x l -> (x <= list_sum l)%nat).
        { clear. induction l as [|a l IH]; intros x H; [destruct H|]. cbn. destruct H as [->|H]; [lia|]. apply IH in H. unfold list_sum in H. lia. }
        apply G in H. pose proof (pow2_gt0 i). destruct (lev i); auto. cbn [length] in H. lia. }
      assert (HH : forall d, hd lev point n d = []).
      { induction d as [|d IH]; auto. cbn [hd]. rewrite HZ by lia. cbn. exact IH. }
      rewrite HH. cbn [app].
      assert (NB : nblocks lev n = 1%nat).
      { unfold nblocks. rewrite Z. apply div_ceil_unique; lia. }
      unfold blocks. rewrite NB. cbn [seq map app nth_error of_opt]. f_equal. unfold block.
      replace (firstn n point) with point by (symmetry; apply firstn_all). apply mle_ext. intros k Hk. rewrite Nat.mul_0_l. cbn [Nat.add]. f_equal.
      destruct (below_ext lev n (M - n) HZ) as [W1 _]. replace (n + (M - n))%nat with M in W1 by lia.
      unfold concat. rewrite <- V1. now rewrite W1.
    - (* a single piece with n variables *)
      pose proof (VS (M - n)%nat) as Q. replace (n + (M - n))%nat with M in Q by lia. rewrite V1 in Q. fold concat in Q.
      assert (P : exists i, (n <= i < M)%nat /\ lev i <> []).
      { destruct (list_sum (map (fun i => length (lev i) * 2 ^ i)%nat (seq n (M - n)))) eqn:S; [lia|].
        assert (G : forall (l : list nat), list_sum l <> 0%nat -> exists x, In x l /\ x <> 0%nat).
        { clear. induction l as [|a l IH]; intros H; [now destruct H|]. destruct a as [|a].
          - destruct IH as [x [I N]]; auto. exists x. split; auto. now right.
          - exists (S a). split; [now left|lia]. }
        destruct (G (map (fun i => length (lev i) * 2 ^ i)%nat (seq n (M - n)))) as [x [I N]]; [lia|].
        apply in_map_iff in I. destruct I as [i [<- I]]. apply in_seq in I. exists i. split; [lia|].
        intros E. rewrite E in N. cbn in N. lia. }
      destruct P as [i [Hi NE]].
      assert (SM : forall l d, list_sum (map (fun i => length (lev i) * 2 ^ i)%nat (seq l d)) = 0%nat -> forall i, (l <= i < l + d)%nat -> lev i = []).
      { intros l d. revert l. induction d as [|d IH]; intros l S0 j Hj; [lia|]. cbn [seq map list_sum fold_right] in S0.
        destruct (Nat.eq_dec j l) as [->|].
        - pose proof (pow2_gt0 l). destruct (lev l); auto. cbn [length] in S0. lia.
        - apply (IH (S l)); [|lia]. unfold list_sum. lia. }
      assert (S1 : list_sum (map (fun i => length (lev i) * 2 ^ i)%nat (seq n (M - n))) =
        (list_sum (map (fun i => length (lev i) * 2 ^ i)%nat (seq n (i - n))) + length (lev i) * 2 ^ i +
         list_sum (map (fun i => length (lev i) * 2 ^ i)%nat (seq (S i) (M - S i))))%nat).
      { replace (M - n)%nat with ((i - n) + (1 + (M - S i)))%nat by lia. rewrite seq_app, map_app, list_sum_app.
        replace (n + (i - n))%nat with i by lia. cbn [Nat.add seq map list_sum fold_right]. fold (list_sum (map (fun i => length (lev i) * 2 ^ i)%nat (seq (S i) (M - S i)))). lia. }
      assert (PI : (2 ^ n <= 2 ^ i)%nat) by (apply Nat.pow_le_mono_r; lia).
      destruct (lev i) as [|f fs] eqn:EL; [congruence|]. cbn [length] in S1.
      assert (Ei : i = n).
      { destruct (Nat.eq_dec i n); auto. exfalso. assert (2 ^ n < 2 ^ i)%nat by (apply Nat.pow_lt_mono_r; lia). lia. }
      subst i. assert (Ef : fs = []).
      { destruct fs; auto. cbn [length] in S1. exfalso. pose proof (pow2_gt0 n). lia. }
      subst fs. cbn [length] in S1.
      assert (HA : forall j, (n < j)%nat -> lev j = []).
      { intros j Hj. destruct (Nat.lt_ge_cases j M); [|apply LO; lia]. apply (SM (S n) (M - S n)%nat); lia. }
      assert (HB : values_below lev n = []).
      { destruct (values_below lev n) eqn:E; auto. cbn [length] in Q. lia. }
      replace (M - n)%nat with (S (M - S n)) by lia. rewrite hd_S.
      assert (HH : forall d, hd lev point (S n) d = []).
      { induction d as [|d IH]; auto. cbn [hd]. rewrite HA by lia. cbn. exact IH. }
      rewrite HH, EL. cbn [map app nth_error of_opt]. f_equal. replace (firstn n point) with point by (symmetry; apply firstn_all).
      apply mle_ext. intros k Hk. fold n in Hk.
      destruct (below_ext lev (S n) (M - S n)) as [W1 _]; [intros; apply HA; lia|].
      replace (S n + (M - S n))%nat with M in W1 by lia. unfold concat. rewrite <- V1, W1. cbn [values_below].
      rewrite EL, HB. cbn [flat_map]. rewrite !app_nil_r. unfold table_list. now rewrite nth_map_seq.
  Qed.

  Theorem piecewise_rejects (point : list F) (npbv : list nat) (evals : list F) :
    (2 ^ length point < list_sum (map (fun i => (nth i npbv 0 * 2 ^ i)%nat) (seq 0 (length npbv))))%nat \/
    length evals <> list_sum npbv ->
    evaluate_piecewise_multilinear point npbv evals = Err.
  Proof.
    unfold evaluate_piecewise_multilinear. intros [H|H].
    - now rewrite (proj2 (Nat.ltb_lt _ _) H).
    - destruct (_ <? _); auto. now rewrite (proj2 (Nat.eqb_neq _ _) H).
  Qed.

  (** No pieces at all: the concatenation is the zero polynomial, but the function panics. *)
  Theorem piecewise_empty_refuted : exists point : list F,
    evaluate_piecewise_multilinear point [] [] = Panic /\ mle (fun _ => 0) point = 0.
  Proof. exists []. split; [reflexivity|]. now rewrite mle_nil. Qed.
End Props.

(** Two pieces with two variables and one with one variable, at a point with four coordinates (the
    example of the documentation). *)
Example piecewise_ex :
  let t a b c d := fun i => nth i (els [a; b; c; d]%N) (el 0) in
  let levels := [[]; [t 6 11 0 0]; [t 1 2 3 4; t 5 6 7 9]]%N in
  let point := els [2; 3; 7; 9]%N in
  (0 < length (values_below X16 (fun i => nth i levels []) 3) <= 2 ^ length point) /\
  shown (try v <- evaluate_piecewise_multilinear point [0; 1; 2]
                   (evals_below X16 (fun i => nth i levels []) point 3); Ok [v]) = Ok [1]%N.
Proof. split; [cbn; lia|]. vm_compute. reflexivity. Qed.
