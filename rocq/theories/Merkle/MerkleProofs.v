Require Import Coq.NArith.NArith Coq.Arith.Arith Coq.Lists.List Coq.Bool.Bool Coq.Sorting.Permutation Lia.
Require Import Verif.Base.Sums Verif.Base.Lists Verif.Base.NatBits Verif.Base.Chunks.
Require Import Verif.Transcript.SerModel Verif.Transcript.SerProofs Verif.Transcript.ChallengerModel.
Require Import Verif.Transcript.ChallengerProps Verif.Merkle.MerkleModel Verif.Merkle.MerkleSpec.
Import ListNotations.
Local Close Scope N_scope. Local Open Scope nat_scope.

Lemma pairs_nth {A} (l : list A) : forall i, nth_error (pairs l) i =
  match nth_error l (2 * i), nth_error l (2 * i + 1) with Some a, Some b => Some (a, b) | _, _ => None end.
Proof.
  assert (G : forall n (l : list A), length l <= n -> forall i, nth_error (pairs l) i =
    match nth_error l (2 * i), nth_error l (2 * i + 1) with Some a, Some b => Some (a, b) | _, _ => None end).
  { clear. induction n; intros l L i.
    - destruct l; [|cbn in L; lia]. cbn [pairs]. destruct i; [reflexivity|].
      cbn [nth_error]. now destruct (2 * S i).
    - destruct l as [|a [|b r]].
      + cbn [pairs]. destruct i; [reflexivity|]. cbn [nth_error]. now destruct (2 * S i).
      + cbn [pairs]. destruct i; [reflexivity|]. replace (2 * S i) with (S (S (2 * i))) by lia. cbn [nth_error].
        now destruct (2 * i).
      + cbn [pairs]. destruct i; [reflexivity|].
        replace (2 * S i) with (S (S (2 * i))) by lia. cbn [nth_error Nat.add]. apply IHn. cbn in L. lia. }
  now apply (G (length l)).
Qed.

Lemma pairs_length {A} (l : list A) : length (pairs l) = length l / 2.
Proof.
  assert (G : forall n (l : list A), length l <= n -> length (pairs l) = length l / 2).
  { clear. induction n; intros l L.
    - destruct l; [reflexivity|cbn in L; lia].
    - destruct l as [|a [|b r]]; [reflexivity|reflexivity|]. cbn [pairs length].
      rewrite IHn by (cbn in L; lia). replace (S (S (length r))) with (length r + 1 * 2) by lia.
      rewrite Nat.div_add by lia. lia. }
  now apply (G (length l)).
Qed.

Lemma pow2_half n : 2 ^ S n / 2 = 2 ^ n.
Proof. rewrite Nat.pow_succ_r', Nat.mul_comm. apply Nat.div_mul. lia. Qed.

Lemma is_pow2 n : is_power_of_two n = true <-> exists k, n = 2 ^ k.
Proof.
  unfold is_power_of_two. rewrite andb_true_iff, negb_true_iff, Nat.eqb_neq, Nat.eqb_eq. split.
  - intros [_ <-]. eauto.
  - intros [k ->]. rewrite Nat.log2_pow2 by lia. pose proof (pow2_pos k). lia.
Qed.
Lemma is_pow2_true k : is_power_of_two (2 ^ k) = true.
Proof. apply is_pow2. eauto. Qed.

Lemma omap_some {A} (l : list A) : omap (fun c => c) (map Some l) = Some l.
Proof. induction l; cbn; [reflexivity|]. now rewrite IHl. Qed.

Lemma digest_eqb_true a b : digest_eqb a b = true <-> a = b.
Proof. unfold digest_eqb. destruct (list_eq_dec N.eq_dec a b); split; congruence. Qed.

Section Proofs.
  Variable V : Type.
  Variable enc : V -> list byte.
  Variable hash : list byte -> list byte.
  Variable osz bsz : nat.
  Variable compress : list byte -> list byte -> list byte.
  Variable utf8 : list byte -> bool.

  Notation up := (up compress).
  Notation level := (level compress).
  Notation merkle_root := (merkle_root compress).
  Notation tree_pairs := (tree_pairs compress).
  Notation path_pairs := (path_pairs compress).

  Lemma hash_leaf_ok vs : 0 < osz -> 0 < bsz -> hash_leaf V enc hash bsz vs = Some (hash (concat (map enc vs))).
  Proof.
    intros. unfold hash_leaf. now apply (hash_serialize_correct hash osz bsz).
  Qed.

  (** ** Layers *)
  Lemma up_length l : length (up l) = length l / 2.
  Proof. unfold MerkleSpec.up. now rewrite map_length, pairs_length. Qed.

  Lemma up_nth l i : nth_error (up l) i = compress_task compress l i.
  Proof.
    unfold MerkleSpec.up, compress_task. rewrite nth_error_map, pairs_nth.
    destruct (nth_error l (2 * i)), (nth_error l (2 * i + 1)); reflexivity.
  Qed.

  Lemma level_S j l : level (S j) l = up (level j l).
  Proof. revert l. induction j; intros l; [reflexivity|]. cbn [MerkleSpec.level] in *. apply IHj. Qed.

  Lemma level_length n j l : j <= n -> length l = 2 ^ n -> length (level j l) = 2 ^ (n - j).
  Proof.
    revert n l. induction j; intros n l H L; cbn [MerkleSpec.level]; [now rewrite Nat.sub_0_r|].
    destruct n; [lia|]. rewrite (IHj n); [reflexivity|lia|].
    rewrite up_length, L. apply pow2_half.
  Qed.

  Lemma up_digests l : (forall x y, length (compress x y) = osz) -> Forall (fun d => length d = osz) (up l).
  Proof. intros compress_len. unfold MerkleSpec.up. apply Forall_forall. intros d Hd. apply in_map_iff in Hd as (p & <- & _). apply compress_len. Qed.
  Lemma level_digests j l : (forall x y, length (compress x y) = osz) -> Forall (fun d => length d = osz) l -> Forall (fun d => length d = osz) (level j l).
  Proof. intros CL. revert l. induction j; intros l H; [exact H|]. cbn. now apply IHj, up_digests. Qed.

  (** ** Construction *)
  Lemma write_cells_nth task order : forall cells i, (forall k, In k order -> k < length cells) ->
    nth_error (write_cells order task cells) i =
      if in_dec Nat.eq_dec i order then
        match task i with Some d => Some (Some d) | None => nth_error cells i end
      else nth_error cells i.
  Proof.
    unfold write_cells. induction order as [|k order IH]; intros cells i H; [reflexivity|].
    cbn [fold_left]. rewrite IH.
    - assert (K : k < length cells) by (apply H; now left).
      destruct (in_dec Nat.eq_dec i order) as [I|I], (in_dec Nat.eq_dec i (k :: order)) as [I'|I'].
      + destruct (task i) eqn:E; auto. destruct (task k) eqn:Ek; auto.
        rewrite nth_error_upd_ne; auto. congruence.
      + destruct I'. now right.
      + destruct I' as [->|]; [|contradiction]. destruct (task i); auto. now apply nth_error_upd_eq.
      + destruct (task k); auto. apply nth_error_upd_ne. intros ->. apply I'. now left.
    - intros j Hj. destruct (task k); [rewrite upd_length|]; apply H; now right.
  Qed.
  Lemma write_cells_length task order : forall cells, length (write_cells order task cells) = length cells.
  Proof.
    unfold write_cells. induction order as [|k order IH]; intros cells; [reflexivity|]. cbn [fold_left].
    rewrite IH. destruct (task k); auto. apply upd_length.
  Qed.

  (** If every cell has a task, the order does not matter and every cell gets its value. *)
  Lemma write_cells_all task order cells r : Permutation order (seq 0 (length cells)) ->
    length r = length cells -> (forall i, i < length cells -> task i = nth_error r i) ->
    write_cells order task cells = map Some r.
  Proof.
    intros P L H. apply nth_error_ext. intros i. rewrite write_cells_nth, nth_error_map.
    - destruct (in_dec Nat.eq_dec i order) as [I|I].
      + apply (Permutation_in i P) in I. apply in_seq in I. rewrite H by lia.
        destruct (nth_error_ex r i) as [x ->]; [lia|]. reflexivity.
      + assert (length cells <= i).
        { destruct (Nat.le_gt_cases (length cells) i); auto. destruct I. 
          apply (Permutation_in i (Permutation_sym P)). apply in_seq. lia. }
        rewrite !(proj2 (nth_error_None _ _)) by lia. reflexivity.
    - intros k Hk. apply (Permutation_in k P) in Hk. apply in_seq in Hk. lia.
  Qed.

  (** The nodes above a layer of 2^m digests. *)
  Fixpoint uppers (m : nat) (l : list digest) : list digest :=
    match m with O => [] | S m => up l ++ uppers m (up l) end.

  Lemma uppers_length m : forall l, length l = 2 ^ m -> length (uppers m l) = 2 ^ m - 1.
  Proof.
    induction m; intros l L; [reflexivity|]. cbn [uppers]. rewrite app_length, up_length, L, pow2_half.
    rewrite IHm by (rewrite up_length, L; apply pow2_half). rewrite pow2_S. pose proof (pow2_pos m). lia.
  Qed.

  Lemma build_layers_ok n sched m : schedule n sched -> m <= n -> forall l rem, length l = 2 ^ m ->
    length rem = 2 ^ m - 1 ->
    build_layers compress sched n (seq (n - m + 1) m) (map Some l) rem = Ok (map Some (uppers m l)).
  Proof.
    intros HS. induction m; intros Hm l rem L R.
    - cbn in R |- *. destruct rem; [reflexivity|discriminate].
    - cbn [seq build_layers uppers]. rewrite pow2_S in R.
      replace (n - (n - S m + 1)) with m by lia.
      pose proof (pow2_pos m). destruct (Nat.ltb_spec (length rem) (2 ^ m)); [lia|].
      unfold assume_init. rewrite omap_some. cbn [of_opt rbind].
      assert (F : length (firstn (2 ^ m) rem) = 2 ^ m) by (rewrite firstn_length; lia).
      assert (U : length (up l) = 2 ^ m) by (rewrite up_length, L; apply pow2_half).
      unfold compress_layer. rewrite (write_cells_all _ _ _ (up l)).
      + replace (S (n - S m + 1)) with (n - m + 1) by lia.
        rewrite IHm; [|lia|exact U|rewrite skipn_length; lia]. cbn [rbind]. now rewrite map_app.
      + rewrite F. replace m with (n - (n - S m + 1)) at 2 by lia. apply HS. lia.
      + now rewrite F, U.
      + intros i Hi. now rewrite up_nth.
  Qed.

  Lemma internal_build_ok n sched f l : schedule n sched -> length l = 2 ^ n ->
    f (repeat None (2 ^ n)) = Ok (map Some l) ->
    internal_build compress sched f n = Ok (Tree n (map Some (l ++ uppers n l))).
  Proof.
    intros HS L E. unfold internal_build. rewrite Nat.add_1_r, pow2_S. pose proof (pow2_pos n).
    replace (firstn (2 ^ n) (repeat None (2 ^ n + 2 ^ n - 1))) with (repeat (@None digest) (2 ^ n)).
    - rewrite E. cbn [rbind]. replace (seq 1 n) with (seq (n - n + 1) n) by now rewrite Nat.sub_diag. rewrite build_layers_ok; auto.
      + cbn [rbind]. now rewrite map_app.
      + rewrite skipn_length, repeat_length. lia.
    - replace (2 ^ n + 2 ^ n - 1) with (2 ^ n + (2 ^ n - 1)) by lia. rewrite repeat_app, firstn_app, repeat_length.
      rewrite Nat.sub_diag. cbn [firstn]. rewrite app_nil_r.
      rewrite <- (repeat_length (@None digest) (2 ^ n)) at 2. now rewrite firstn_all.
  Qed.

  (** The leaf digests. *)
  Definition leaves (chs : list (list V)) : list digest := map (fun vs => hash (concat (map enc vs))) chs.

  Lemma hash_iterated_ok order chs n : 0 < osz -> 0 < bsz -> Permutation order (seq 0 (2 ^ n)) -> length chs = 2 ^ n ->
    hash_iterated V enc hash bsz order chs (repeat None (2 ^ n)) = Ok (map Some (leaves chs)).
  Proof.
    intros HO HB P L. unfold hash_iterated. f_equal. apply write_cells_all.
    - now rewrite repeat_length.
    - unfold leaves. now rewrite map_length, repeat_length.
    - intros i Hi. unfold leaf_task, leaves. rewrite nth_error_map.
      destruct (nth_error chs i); [|reflexivity]. now apply hash_leaf_ok.
  Qed.

  Lemma build_ok sched data b n : 0 < osz -> 0 < bsz -> schedule n sched -> 0 < b -> length data = 2 ^ n * b ->
    build V enc hash bsz compress sched data b =
      Ok (Tree n (map Some (leaves (chunks b data) ++ uppers n (leaves (chunks b data))))).
  Proof.
    intros HO HB HS Hb L. unfold build. destruct (Nat.eqb_spec b 0); [lia|].
    rewrite L, Nat.mod_mul, Nat.eqb_refl, Nat.div_mul by lia. cbn [negb].
    rewrite is_pow2_true, Nat.log2_pow2 by lia. cbn [negb].
    apply internal_build_ok; auto.
    - unfold leaves. rewrite map_length. now apply chunks_length.
    - unfold hash_interleaved. rewrite repeat_length, L. pose proof (pow2_pos n).
      rewrite (Nat.mul_comm (2 ^ n) b), Nat.mod_mul, Nat.eqb_refl, Nat.div_mul by lia. cbn [negb].
      destruct (Nat.eqb_spec b 0); [lia|]. apply hash_iterated_ok; auto.
      + replace (seq 0 (2 ^ n)) with (seq 0 (2 ^ (n - 0))) by now rewrite Nat.sub_0_r. apply HS. lia.
      + now apply chunks_length.
  Qed.

  (** ** Reading the flattened tree *)
  Lemma flat_nth n j i : j <= n -> i < 2 ^ (n - j) -> forall l, length l = 2 ^ n ->
    nth_error (l ++ uppers n l) (2 ^ (n + 1) - 2 ^ (n + 1 - j) + i) = nth_error (level j l) i.
  Proof.
    revert n. induction j; intros n Hj Hi l L.
    - rewrite Nat.sub_0_r, Nat.sub_diag. cbn [Nat.add MerkleSpec.level]. rewrite Nat.sub_0_r in Hi.
      apply nth_error_app1. lia.
    - destruct n; [lia|]. cbn [uppers MerkleSpec.level].
      rewrite <- (IHj n); [|lia|exact Hi|rewrite up_length, L; apply pow2_half].
      replace (S n + 1 - S j) with (n + 1 - j) by lia.
      assert (2 ^ (n + 1 - j) <= 2 ^ (n + 1)) by (apply pow2_le; lia).
      rewrite nth_error_app2.
      + f_equal. rewrite L. replace (S n + 1) with (S (n + 1)) by lia. rewrite pow2_S.
        replace (2 ^ S n) with (2 ^ (n + 1)) by (f_equal; lia). lia.
      + rewrite L. replace (S n + 1) with (S (n + 1)) by lia. rewrite (pow2_S (n + 1)).
        replace (2 ^ S n) with (2 ^ (n + 1)) by (f_equal; lia). lia.
  Qed.

  Lemma flat_length n l : length l = 2 ^ n -> length (l ++ uppers n l) = 2 ^ (n + 1) - 1.
  Proof.
    intros L. rewrite app_length, uppers_length, L, Nat.add_1_r, pow2_S by auto. pose proof (pow2_pos n). lia.
  Qed.

  Definition flat (n : nat) (l : list digest) : tree := Tree n (map Some (l ++ uppers n l)).

  Lemma last_nth {A} (l : list A) d : last l d = nth (length l - 1) l d.
  Proof.
    induction l as [|a [|b r] IH]; [reflexivity|reflexivity|].
    change (last (a :: b :: r) d) with (last (b :: r) d). rewrite IH. cbn [length nth].
    replace (S (S (length r)) - 1) with (S (length r)) by lia. cbn [Nat.sub]. now rewrite Nat.sub_0_r.
  Qed.

  Lemma root_ok n l : length l = 2 ^ n -> root (flat n l) = Ok (merkle_root n l).
  Proof.
    intros L. unfold root, flat. cbn [inner_nodes]. pose proof (flat_length n l L) as FL.
    pose proof (pow2_pos n). rewrite Nat.add_1_r, pow2_S in FL.
    assert (NE : map Some (l ++ uppers n l) <> []).
    { intros E. apply (f_equal (@length _)) in E. rewrite map_length, FL in E. cbn in E. lia. }
    destruct (map Some (l ++ uppers n l)) as [|x r] eqn:E; [congruence|]. rewrite <- E. clear x r E NE.
    rewrite last_nth, map_length, FL.
    pose proof (flat_nth n n 0 (le_n _)) as F. rewrite Nat.sub_diag in F. specialize (F (pow2_pos 0) l L).
    replace (n + 1 - n) with 1 in F by lia. rewrite Nat.add_0_r, Nat.add_1_r, pow2_S in F. cbn [Nat.pow] in F.
    pose proof (level_length n n l (le_n _) L) as LL. rewrite Nat.sub_diag in LL.
    unfold MerkleSpec.merkle_root. destruct (level n l) as [|d [|]] eqn:El; try discriminate LL.
    cbn [nth_error nth] in *. replace (2 ^ n + 2 ^ n - 1 - 1) with (2 ^ n + 2 ^ n - (1 + 1)) by lia.
    rewrite (nth_error_nth _ _ None (x := Some d)); [reflexivity|]. rewrite nth_error_map.
    replace (2 ^ n + 2 ^ n - (1 + 1)) with (2 ^ n + 2 ^ n - 2 * 1) by lia. now rewrite F.
  Qed.

  Lemma layer_ok n l d : length l = 2 ^ n -> d <= n -> layer (flat n l) d = Ok (level (n - d) l).
  Proof.
    intros L H. unfold layer, flat. cbn [log_len inner_nodes]. rewrite map_length, flat_length by auto.
    destruct (Nat.ltb_spec n d); [lia|].
    pose proof (pow2_pos n). pose proof (pow2_pos (n + 1)). pose proof (pow2_pos d).
    assert (2 ^ (d + 1) <= 2 ^ (n + 1)) by (apply pow2_le; lia).
    replace (2 ^ (n + 1) - 1 + 1) with (2 ^ (n + 1)) by lia.
    destruct (Nat.ltb_spec (2 ^ (n + 1)) (2 ^ (d + 1))); [lia|].
    destruct (Nat.ltb_spec (2 ^ (n + 1) - 1) (2 ^ (n + 1) - 2 ^ (d + 1) + 2 ^ d)).
    { rewrite (Nat.add_1_r d), pow2_S in *. lia. }
    unfold assume_init.
    replace (firstn (2 ^ d) (skipn (2 ^ (n + 1) - 2 ^ (d + 1)) (map Some (l ++ uppers n l))))
      with (map Some (level (n - d) l)); [now rewrite omap_some|].
    apply nth_error_ext. intros i. rewrite nth_error_firstn, nth_error_skipn, !nth_error_map.
    assert (LL : length (level (n - d) l) = 2 ^ d).
    { rewrite (level_length n) by (auto; lia). f_equal. lia. }
    destruct (Nat.ltb_spec i (2 ^ d)).
    - rewrite <- (flat_nth n (n - d) i); auto; try lia.
      + now replace (n + 1 - (n - d)) with (d + 1) by lia.
      + now replace (n - (n - d)) with d by lia.
    - now rewrite (proj2 (nth_error_None _ _)) by lia.
  Qed.

  Lemma lxor1 x : Nat.lxor x 1 = if Nat.even x then x + 1 else x - 1.
  Proof.
    pose proof (Nat.div2_odd x) as E. rewrite <- Nat.negb_odd.
    apply Nat.bits_inj. intros i. rewrite Nat.lxor_spec.
    set (q := Nat.div2 x) in *.
    destruct (Nat.odd x); cbn [negb Nat.b2n] in *; rewrite E.
    - replace (2 * q + 1 - 1) with (2 * q) by lia. destruct i.
      + rewrite Nat.testbit_odd_0, Nat.testbit_even_0. reflexivity.
      + rewrite Nat.testbit_odd_succ, Nat.testbit_even_succ by lia. change 1 with (2 * 0 + 1).
        rewrite Nat.testbit_odd_succ by lia. rewrite Nat.bits_0. apply xorb_false_r.
    - replace (2 * q + 0) with (2 * q) by lia. destruct i.
      + rewrite Nat.testbit_odd_0, Nat.testbit_even_0. reflexivity.
      + rewrite Nat.testbit_odd_succ, Nat.testbit_even_succ by lia. change 1 with (2 * 0 + 1) at 1.
        rewrite Nat.testbit_odd_succ by lia. rewrite Nat.bits_0. apply xorb_false_r.
  Qed.

  Lemma lxor1_lt x n : x < 2 ^ S n -> Nat.lxor x 1 < 2 ^ S n.
  Proof. intros. apply lxor_lt_pow; auto. rewrite pow2_S. pose proof (pow2_pos n). lia. Qed.

  (** The siblings on the way up from a leaf. *)
  Definition siblings (l : list digest) (index j k : nat) : list digest :=
    map (fun i => nth (Nat.lxor (index / 2 ^ i) 1) (level i l) []) (seq j k).

  Lemma branch_ok n l index d : length l = 2 ^ n -> index < 2 ^ n -> d <= n ->
    branch (flat n l) index d = Ok (siblings l index 0 (n - d)).
  Proof.
    intros L HI H. unfold branch. cbn [flat log_len].
    destruct (Nat.leb_spec (2 ^ n) index); [lia|]. destruct (Nat.ltb_spec n d); [lia|]. cbn [orb].
    replace (omap (branch_node (flat n l) index) (seq 0 (n - d))) with (Some (siblings l index 0 (n - d))); [reflexivity|].
    symmetry. apply omap_spec. unfold siblings. rewrite map_length. split; [reflexivity|].
    intros i a E. rewrite nth_error_map, E. cbn [option_map].
    rewrite nth_error_seq in E. destruct (Nat.ltb_spec i (n - d)); [|discriminate].
    injection E as <-. cbn [Nat.add].
    unfold branch_node. cbn [flat log_len inner_nodes]. rewrite shl_mul, shr_div.
    set (x := Nat.lxor (index / 2 ^ i) 1).
    assert (Hx : x < 2 ^ (n - i)).
    { unfold x. replace (n - i) with (S (n - i - 1)) by lia. apply lxor1_lt.
      apply div_lt. now replace (i + S (n - i - 1)) with n by lia. }
    rewrite lor_shiftl.
    - replace ((2 ^ i - 1) * 2 ^ (n + 1 - i) + x) with (2 ^ (n + 1) - 2 ^ (n + 1 - i) + x).
      + rewrite nth_error_map, (flat_nth n i x) by (auto; lia).
        destruct (nth_error_ex (level i l) x) as [y Ey].
        * rewrite (level_length n) by (auto; lia). exact Hx.
        * rewrite Ey. cbn. f_equal. now apply nth_error_nth.
      + f_equal. rewrite Nat.mul_sub_distr_r, <- Nat.pow_add_r, Nat.mul_1_l. now replace (i + (n + 1 - i)) with (n + 1) by lia.
    - apply (Nat.lt_le_trans _ _ _ Hx). apply pow2_le. lia.
  Qed.

  (** ** Climbing *)
  Lemma land1 i : (Nat.land i 1 =? 0) = Nat.even i.
  Proof.
    change 1 with (Nat.ones 1). rewrite Nat.land_ones. change (2 ^ 1) with 2.
    rewrite <- Nat.negb_odd, <- Nat.bit0_odd, Nat.bit0_eqb.
    assert (i mod 2 < 2) by (apply Nat.mod_upper_bound; lia).
    destruct (i mod 2) as [|[|]]; [reflexivity|reflexivity|lia].
  Qed.
  Lemma shr1 i : Nat.shiftr i 1 = i / 2.
  Proof. now rewrite shr_div. Qed.

  Lemma climb_cons i d b r : climb compress i d (b :: r) =
    climb compress (i / 2) (if Nat.even i then compress d b else compress b d) r.
  Proof. cbn [climb]. now rewrite land1, shr1. Qed.
  Lemma climb_app p q : forall i d, climb compress i d (p ++ q) =
    let '(i', d') := climb compress i d p in climb compress i' d' q.
  Proof. induction p as [|b p IH]; intros i d; [reflexivity|]. cbn [app]. rewrite !climb_cons. apply IH. Qed.
  Lemma path_pairs_app p q : forall i d, path_pairs i d (p ++ q) =
    path_pairs i d p ++ let '(i', d') := climb compress i d p in path_pairs i' d' q.
  Proof.
    induction p as [|b p IH]; intros i d; [reflexivity|]. cbn [app MerkleSpec.path_pairs]. rewrite IH, climb_cons.
    destruct (Nat.even i); reflexivity.
  Qed.

  Lemma nth_up l x : 2 * x + 1 < length l -> nth x (up l) [] = compress (nth (2 * x) l []) (nth (2 * x + 1) l []).
  Proof.
    intros H. apply nth_error_nth. rewrite up_nth. unfold compress_task.
    rewrite !(nth_error_nth' l []) by lia. reflexivity.
  Qed.

  Lemma even_parts x : (Nat.even x = true /\ x = 2 * (x / 2) /\ Nat.lxor x 1 = 2 * (x / 2) + 1) \/
    (Nat.even x = false /\ x = 2 * (x / 2) + 1 /\ Nat.lxor x 1 = 2 * (x / 2)).
  Proof.
    pose proof (Nat.div2_odd x) as E. rewrite Nat.div2_div in E. rewrite lxor1, <- Nat.negb_odd.
    destruct (Nat.odd x); cbn [Nat.b2n negb] in *; [right|left]; repeat split; lia.
  Qed.

  Lemma climb_siblings n l index : length l = 2 ^ n -> index < 2 ^ n -> forall k j, j + k <= n ->
    climb compress (index / 2 ^ j) (nth (index / 2 ^ j) (level j l) []) (siblings l index j k) =
      (index / 2 ^ (j + k), nth (index / 2 ^ (j + k)) (level (j + k) l) []) /\
    incl (path_pairs (index / 2 ^ j) (nth (index / 2 ^ j) (level j l) []) (siblings l index j k))
      (tree_pairs (n - j) (level j l)).
  Proof.
    intros L HI. induction k; intros j H.
    - cbn. rewrite Nat.add_0_r. split; [reflexivity|]. intros x [].
    - change (siblings l index j (S k)) with
        (nth (Nat.lxor (index / 2 ^ j) 1) (level j l) [] :: siblings l index (S j) k).
      rewrite climb_cons. cbn [MerkleSpec.path_pairs].
      replace (j + S k) with (S j + k) by lia. destruct (IHk (S j)) as [I1 I2]; [lia|].
      replace (index / 2 ^ j / 2) with (index / 2 ^ S j).
      2:{ symmetry. change (index / 2 ^ j / 2 ^ 1 = index / 2 ^ S j). rewrite div_div. f_equal. f_equal. lia. }
      assert (LJ : length (level j l) = 2 ^ (n - j)) by (apply level_length; auto; lia).
      set (x := index / 2 ^ j) in *.
      assert (Hx : x < 2 ^ (n - j)) by (apply div_lt; now replace (j + (n - j)) with n by lia).
      assert (HS : index / 2 ^ S j = x / 2).
      { unfold x. symmetry. change (index / 2 ^ j / 2 ^ 1 = index / 2 ^ S j). rewrite div_div. f_equal. f_equal. lia. }
      assert (HD : 2 * (x / 2) + 1 < length (level j l)).
      { rewrite LJ. replace (n - j) with (S (n - j - 1)) in * by lia. rewrite pow2_S in *.
        assert (x / 2 < 2 ^ (n - j - 1)) by (apply Nat.div_lt_upper_bound; lia). lia. }
      assert (HP : In (nth (2 * (x / 2)) (level j l) [], nth (2 * (x / 2) + 1) (level j l) []) (pairs (level j l))).
      { apply nth_error_In with (x / 2). rewrite pairs_nth. rewrite !(nth_error_nth' _ []) by lia. reflexivity. }
      rewrite level_S, HS, nth_up in I1, I2 by exact HD.
      replace (n - j) with (S (n - S j)) by lia. cbn [MerkleSpec.tree_pairs].
      rewrite HS.
      assert (P : forall p : digest * digest, p = (nth (2 * (x / 2)) (level j l) [], nth (2 * (x / 2) + 1) (level j l) []) ->
        incl (p :: path_pairs (x / 2) (compress (fst p) (snd p)) (siblings l index (S j) k))
          (pairs (level j l) ++ tree_pairs (n - S j) (up (level j l)))).
      { intros p ->. cbn [fst snd]. intros y [<-|Hy]; apply in_or_app; [left; exact HP|right].
        now apply I2. }
      destruct (even_parts x) as [(Ev & E1 & E2)|(Ev & E1 & E2)]; rewrite Ev, E2.
      + replace (nth x (level j l) []) with (nth (2 * (x / 2)) (level j l) []) by (f_equal; lia).
        split; [exact I1|]. now apply P.
      + replace (nth x (level j l) []) with (nth (2 * (x / 2) + 1) (level j l) []) by (f_equal; lia).
        split; [exact I1|]. now apply P.
  Qed.

  (** ** In-place folding *)
  Lemma fold_step_loop ds len : 2 * len <= length ds -> exists ds', ofold (fold_step compress) (seq 0 len) ds = Some ds' /\
    length ds' = length ds /\ firstn len ds' = up (firstn (2 * len) ds).
  Proof.
    intros H.
    destruct (ofold_inv (fold_step compress) (fun k cur => k <= len -> length cur = length ds /\
      forall i, i < length ds -> nth_error cur i = if i <? k then compress_task compress ds i else nth_error ds i)
      (seq 0 len) ds 0) as (ds' & E & P).
    - intros _. split; [reflexivity|]. intros i Hi. reflexivity.
    - intros k b cur Eb P. rewrite nth_error_seq in Eb. destruct (Nat.ltb_spec k len); [|discriminate].
      injection Eb as <-. cbn [Nat.add] in *. destruct P as [PL P]; [lia|].
      unfold fold_step. rewrite !P by lia.
      destruct (Nat.ltb_spec (2 * k) k); [lia|]. destruct (Nat.ltb_spec (2 * k + 1) k); [lia|].
      rewrite !(nth_error_nth' ds []) by lia. cbn [obind]. eexists. split; [reflexivity|].
      intros _. rewrite upd_length. split; [exact PL|]. intros i Hi. rewrite nth_error_upd, PL.
      destruct (Nat.eqb_spec i k).
      + subst i. destruct (Nat.ltb_spec k (length ds)); [|lia]. destruct (Nat.ltb_spec k (S k)); [|lia].
        unfold compress_task. rewrite !(nth_error_nth' ds []) by lia. reflexivity.
      + rewrite P by auto. destruct (Nat.ltb_spec i k), (Nat.ltb_spec i (S k)); auto; lia.
    - exists ds'. rewrite seq_length in P. destruct P as [PL P]; [lia|]. split; [exact E|]. split; [exact PL|].
      apply nth_error_ext. intros i. rewrite nth_error_firstn, up_nth. unfold compress_task.
      rewrite !nth_error_firstn.
      destruct (Nat.ltb_spec i len).
      + rewrite P by lia. cbn [Nat.add]. destruct (Nat.ltb_spec i len); [|lia].
        destruct (Nat.ltb_spec (2 * i) (2 * len)); [|lia]. destruct (Nat.ltb_spec (2 * i + 1) (2 * len)); [|lia].
        reflexivity.
      + destruct (Nat.ltb_spec (2 * i) (2 * len)); [lia|]. reflexivity.
  Qed.

  Lemma fold_while_ok m : forall fuel ds l, m <= fuel -> length l = 2 ^ m -> firstn (2 ^ m) ds = l ->
    2 ^ m <= length ds ->
    exists ds', fold_while compress fuel (2 ^ m / 2) ds = Ok ds' /\ nth_error ds' 0 = Some (merkle_root m l).
  Proof.
    induction m; intros fuel ds l HF L E HL.
    - exists ds. split; [now destruct fuel|]. unfold MerkleSpec.merkle_root. cbn [MerkleSpec.level].
      destruct l as [|d [|]]; try discriminate. destruct ds as [|d' r]; [discriminate|].
      cbn in E. injection E as <-. reflexivity.
    - rewrite pow2_half. destruct fuel; [lia|]. cbn [fold_while].
      pose proof (pow2_pos m). destruct (Nat.eqb_spec (2 ^ m) 0); [lia|]. rewrite pow2_S in *.
      destruct (fold_step_loop ds (2 ^ m)) as (ds1 & -> & L1 & U1); [lia|]. cbn [of_opt rbind].
      replace (2 * 2 ^ m) with (2 ^ m + 2 ^ m) in U1 by lia. rewrite E in U1.
      destruct (IHm fuel ds1 (up l)) as (ds' & -> & R); auto; try lia.
      + rewrite up_length, L, <- pow2_S. apply pow2_half.
      + exists ds'. split; [reflexivity|]. exact R.
  Qed.

  Lemma log2_le_pow n : n <= 2 ^ n.
  Proof. induction n as [|n IH]; cbn; [lia|]. pose proof (pow2_pos n). lia. Qed.

  Lemma fold_inplace_ok n l : length l = 2 ^ n -> exists ds',
    fold_digests_vector_inplace compress l = Ok ds' /\ nth_error ds' 0 = Some (merkle_root n l).
  Proof.
    intros L. unfold fold_digests_vector_inplace. rewrite L, is_pow2_true. cbn [negb].
    apply fold_while_ok; auto; try lia; [apply log2_le_pow|]. rewrite <- L. apply firstn_all.
  Qed.

  (** ** Reading a branch *)
  Lemma read_digests_ok b extra : Forall (fun d => length d = osz) b ->
    read_digests osz utf8 (length b) (concat b ++ extra) = Ok (b, extra).
  Proof.
    induction 1 as [|d b Hd Hb IH]; [reflexivity|]. cbn [length read_digests concat].
    rewrite <- app_assoc. cbn [de].
    assert (T : take osz (d ++ concat b ++ extra) = Ok (d, concat b ++ extra)) by (rewrite <- Hd; apply take_app).
    rewrite T. cbn [rbind]. rewrite IH. reflexivity.
  Qed.

  Lemma read_digests_inv n : forall tape path rest, read_digests osz utf8 n tape = Ok (path, rest) ->
    path = digests_at osz n tape /\ length path = n.
  Proof.
    induction n; intros tape path rest E; cbn [read_digests digests_at] in *.
    - apply ok_inj in E. now injection E as <- _.
    - apply rbind_ok in E as [[d r] [E1 E]]. apply rbind_ok in E as [[ds r2] [E2 E]].
      apply ok_inj in E. injection E as <- _. cbn [de] in E1. apply take_ok in E1 as [-> Ld].
      apply IHn in E2 as [-> L]. cbn [length]. rewrite L. split; [|reflexivity].
      rewrite <- Ld, firstn_app, firstn_all, Nat.sub_diag, skipn_app, skipn_all, Nat.sub_diag.
      cbn [firstn skipn app]. now rewrite app_nil_r.
  Qed.
End Proofs.
