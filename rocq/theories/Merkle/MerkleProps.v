(** Merkle tree: completeness (C31) and binding (C32). *)
Require Import Coq.NArith.NArith Coq.Arith.Arith Coq.Lists.List Coq.Bool.Bool Coq.Sorting.Permutation Lia.
Require Import Verif.Base.Sums Verif.Base.Lists Verif.Base.NatBits Verif.Base.Chunks.
Require Import Verif.Transcript.SerModel Verif.Transcript.SerProofs Verif.Transcript.ChallengerModel.
Require Import Verif.Transcript.ChallengerProps Verif.Transcript.ChallengerBinding.
Require Import Verif.Merkle.MerkleModel Verif.Merkle.MerkleSpec Verif.Merkle.MerkleProofs.
Import ListNotations.
Local Close Scope N_scope. Local Open Scope nat_scope.

Section Merkle.
  Variable V : Type.
  Variable enc : V -> list byte.
  Variable hash : list byte -> list byte.
  Variable osz bsz : nat.
  Variable compress : list byte -> list byte -> list byte.
  Variable utf8 : list byte -> bool.
  Hypothesis hash_len : forall x, length (hash x) = osz.
  Hypothesis compress_len : forall x y, length (compress x y) = osz.
  Hypothesis osz_pos : 0 < osz.
  Hypothesis bsz_pos : 0 < bsz.

  Notation commit := (commit V enc hash bsz compress).
  Notation commit_iterated := (commit_iterated V enc hash bsz compress).
  Notation verify_opening := (verify_opening V enc hash osz bsz compress utf8).
  Notation verify_vector := (verify_vector V enc hash bsz compress).
  Notation verify_layer := (verify_layer compress).
  (** The digest of a batch of elements. *)
  Notation leaf vs := (hash (concat (map enc vs))).
  (** The leaf digests of a vector. *)
  Notation leaf_digests b data := (map (fun vs => leaf vs) (chunks b data)).

  Lemma leaf_digest_nth b n data i : 0 < b -> length data = 2 ^ n * b -> i < 2 ^ n ->
    nth i (leaf_digests b data) [] = leaf (batch b i data).
  Proof.
    intros Hb L Hi. apply nth_error_nth. rewrite nth_error_map, chunks_nth_error by auto.
    destruct (Nat.ltb_spec (i * b) (length data)); [reflexivity|]. rewrite L in *. nia.
  Qed.

  (** Opening an honestly built tree. *)
  Lemma flat_opening n l : length l = 2 ^ n -> Forall (fun d => length d = osz) l ->
    forall d, d <= n -> exists ld, layer (flat compress n l) d = Ok ld /\
      Forall (fun x => length x = osz) ld /\ verify_layer (merkle_root compress n l) d ld = Ok tt /\
      forall index vs, index < 2 ^ n -> nth index l [] = leaf vs -> exists proof,
        prove_opening (flat compress n l) d index = Ok proof /\ length proof = (n - d) * osz /\
        forall extra, verify_opening index vs d n ld (proof ++ extra) = Ok extra.
  Proof.
    intros L W d Hd. exists (level compress (n - d) l). split; [now apply layer_ok|].
    assert (LL : length (level compress (n - d) l) = 2 ^ d).
    { rewrite (level_length compress n) by (auto; lia). f_equal. lia. }
    split; [now apply level_digests|]. split.
    - unfold MerkleModel.verify_layer. rewrite LL, Nat.eqb_refl. cbn [negb].
      destruct (fold_inplace_ok compress d _ LL) as (ds & -> & E). cbn [rbind]. rewrite E. cbn [of_opt rbind].
      replace (merkle_root compress d (level compress (n - d) l)) with (merkle_root compress n l).
      + now rewrite (proj2 (digest_eqb_true _ _) eq_refl).
      + unfold merkle_root. f_equal.
        assert (G : forall a b x, level compress (a + b) x = level compress a (level compress b x)).
        { intros a b. revert a. induction b; intros a x; [now rewrite Nat.add_0_r|].
          rewrite Nat.add_succ_r. cbn [level]. apply IHb. }
        rewrite <- G. f_equal. lia.
    - intros index vs HI E.
      assert (LB : length (siblings compress l index 0 (n - d)) = n - d).
      { unfold siblings. now rewrite map_length, seq_length. }
      assert (WB : Forall (fun x => length x = osz) (siblings compress l index 0 (n - d))).
      { apply Forall_forall. unfold siblings. intros x Hx. apply in_map_iff in Hx as (j & <- & Hj).
        apply in_seq in Hj. pose proof (level_digests osz compress j l compress_len W) as WL. rewrite Forall_forall in WL.
        apply WL, nth_In. rewrite (level_length compress n) by (auto; lia).
        replace (n - j) with (S (n - j - 1)) by lia. apply lxor1_lt, div_lt.
        now replace (j + S (n - j - 1)) with n by lia. }
      exists (concat (siblings compress l index 0 (n - d))).
      unfold prove_opening. rewrite branch_ok by auto. cbn [rbind]. split; [reflexivity|]. split.
      + rewrite <- LB at 2. clear - WB. induction WB; [reflexivity|]. cbn. rewrite app_length. lia.
      + intros extra. unfold MerkleModel.verify_opening. rewrite LL, Nat.eqb_refl. cbn [negb].
        destruct (Nat.leb_spec (2 ^ n) index); [lia|].
        rewrite (hash_leaf_ok V enc hash osz bsz _ osz_pos bsz_pos). cbn [of_opt rbind].
        destruct (Nat.ltb_spec n d); [lia|].
        rewrite <- LB at 1. rewrite read_digests_ok by auto. cbn [rbind].
        destruct (climb_siblings compress n l index L HI (n - d) 0) as [C _]; [lia|].
        cbn [Nat.add level] in C. rewrite Nat.pow_0_r, Nat.div_1_r, E in C. rewrite C. cbn [rbind].
        assert (HX : index / 2 ^ (n - d) < 2 ^ d) by (apply div_lt; now replace (n - d + d) with n by lia).
        rewrite (nth_error_nth' _ []) by lia. cbn [of_opt rbind].
        now rewrite (proj2 (digest_eqb_true _ _) eq_refl).
  Qed.

  (** C31: committing to any vector of 2^n batches succeeds under every schedule of the parallel loops
      and yields the Merkle root of the batch digests.  The vector verifies against the root; so does every
      layer that the tree hands out; and the branch written for any index and any layer verifies for the
      batch at that index, consuming exactly what was written. *)
  Theorem merkle_completeness sched data b n :
    schedule n sched -> 0 < b -> length data = 2 ^ n * b ->
    exists rt t, commit sched data b = Ok (rt, n, t) /\
      rt = merkle_root compress n (leaf_digests b data) /\
      verify_vector rt data b = Ok tt /\
      forall d, d <= n -> exists ld, layer t d = Ok ld /\ Forall (fun x => length x = osz) ld /\ verify_layer rt d ld = Ok tt /\
        forall index, index < 2 ^ n -> exists proof,
          prove_opening t d index = Ok proof /\ length proof = (n - d) * osz /\
          forall extra, verify_opening index (batch b index data) d n ld (proof ++ extra) = Ok extra.
  Proof.
    intros HS Hb L.
    assert (LL : length (leaf_digests b data) = 2 ^ n) by (rewrite map_length; now apply chunks_length).
    exists (merkle_root compress n (leaf_digests b data)), (flat compress n (leaf_digests b data)).
    split; [|split; [reflexivity|split]].
    - unfold MerkleModel.commit.
      rewrite (build_ok V enc hash osz bsz compress sched data b n osz_pos bsz_pos HS Hb L).
      cbn [rbind]. change (leaves V enc hash (chunks b data)) with (leaf_digests b data).
      fold (flat compress n (leaf_digests b data)). rewrite root_ok by exact LL. reflexivity.
    - unfold MerkleModel.verify_vector. destruct (Nat.eqb_spec b 0); [lia|].
      rewrite L, Nat.mod_mul, Nat.eqb_refl by lia. cbn [negb].
      replace (omap (hash_leaf V enc hash bsz) (chunks b data)) with (Some (leaf_digests b data)).
      + cbn [of_opt rbind]. destruct (fold_inplace_ok compress n _ LL) as (ds & -> & E). cbn [rbind].
        rewrite E. cbn [of_opt rbind]. now rewrite (proj2 (digest_eqb_true _ _) eq_refl).
      + symmetry. apply omap_spec. split; [apply map_length|]. intros i vs Ei. rewrite nth_error_map, Ei.
        cbn. now rewrite (hash_leaf_ok V enc hash osz bsz _ osz_pos bsz_pos).
    - intros d Hd.
      destruct (flat_opening n (leaf_digests b data) LL) with (d := d) as (ld & E1 & EF & E2 & E3); auto.
      { apply Forall_forall. intros x Hx. apply in_map_iff in Hx as (vs & <- & _). apply hash_len. }
      exists ld. split; [exact E1|]. split; [exact EF|]. split; [exact E2|]. intros index HI. apply E3; [exact HI|].
      now apply leaf_digest_nth with n.
  Qed.

  (** C31: the same for a commitment to an iterator of 2^n batches of any lengths. *)
  Theorem merkle_completeness_iterated sched chs n : schedule n sched -> length chs = 2 ^ n ->
    exists rt t, commit_iterated sched chs n = Ok (rt, n, t) /\
      rt = merkle_root compress n (map (fun vs => leaf vs) chs) /\
      forall d, d <= n -> exists ld, layer t d = Ok ld /\ Forall (fun x => length x = osz) ld /\ verify_layer rt d ld = Ok tt /\
        forall index, index < 2 ^ n -> exists proof,
          prove_opening t d index = Ok proof /\ length proof = (n - d) * osz /\
          forall extra, verify_opening index (nth index chs []) d n ld (proof ++ extra) = Ok extra.
  Proof.
    intros HS L. set (l := map (fun vs => leaf vs) chs).
    assert (LL : length l = 2 ^ n) by (unfold l; now rewrite map_length).
    exists (merkle_root compress n l), (flat compress n l). split; [|split; [reflexivity|]].
    - unfold MerkleModel.commit_iterated, build_from_iterator. rewrite (internal_build_ok compress n sched _ l); auto.
      + cbn [rbind]. fold (flat compress n l). rewrite root_ok by exact LL. reflexivity.
      + apply (hash_iterated_ok V enc hash osz bsz); auto.
        replace (seq 0 (2 ^ n)) with (seq 0 (2 ^ (n - 0))) by now rewrite Nat.sub_0_r. apply HS. lia.
    - intros d Hd. destruct (flat_opening n l LL) with (d := d) as (ld & E1 & EF & E2 & E3); auto.
      { apply Forall_forall. intros x Hx. apply in_map_iff in Hx as (vs & <- & _). apply hash_len. }
      exists ld. split; [exact E1|]. split; [exact EF|]. split; [exact E2|]. intros index HI. apply E3; [exact HI|].
      unfold l. rewrite (nth_indep _ [] (leaf [])) by (rewrite map_length; lia).
      now rewrite (map_nth (fun vs => leaf vs) chs []).
  Qed.

  (** C31: a vector that is not 2^n nonempty batches is refused, whatever the schedule. *)
  Theorem merkle_commit_refuses sched data b : 0 < b ->
    (forall n, length data <> 2 ^ n * b) -> commit sched data b = Err.
  Proof.
    intros Hb H. unfold MerkleModel.commit, build. destruct (Nat.eqb_spec b 0); [lia|].
    destruct (Nat.eqb_spec (length data mod b) 0) as [E|E]; [|reflexivity]. cbn [negb].
    destruct (is_power_of_two (length data / b)) eqn:P; [|reflexivity].
    apply is_pow2 in P as [k P]. destruct (H k). rewrite <- P.
    rewrite (Nat.div_mod (length data) b) at 1 by lia. lia.
  Qed.

  (** ** Binding *)
  Lemma collision_incl l1 l1' l2 l2' : incl l1 l1' -> incl l2 l2' ->
    node_collision compress l1 l2 -> node_collision compress l1' l2'.
  Proof. intros I1 I2 (p & q & Hp & Hq & H). exists p, q. auto. Qed.

  Lemma digest_dec (a b : digest) : {a = b} + {a <> b}.
  Proof. apply list_eq_dec, N.eq_dec. Qed.

  Lemma climb_bind p1 : forall p2 i d1 d2 r, length p1 = length p2 ->
    snd (climb compress i d1 p1) = r -> snd (climb compress i d2 p2) = r ->
    d1 = d2 \/ node_collision compress (path_pairs compress i d1 p1) (path_pairs compress i d2 p2).
  Proof.
    induction p1 as [|b1 p1 IH]; intros [|b2 p2] i d1 d2 r L E1 E2; try discriminate.
    - left. cbn in *. congruence.
    - rewrite climb_cons in E1, E2. injection L as L. cbn [path_pairs].
      destruct (Nat.even i).
      + destruct (IH p2 (i / 2) _ _ r L E1 E2) as [E|C].
        * destruct (digest_dec d1 d2) as [|N]; [now left|right].
          exists (d1, b1), (d2, b2). repeat split; try now left. congruence. exact E.
        * right. revert C. apply collision_incl; apply incl_tl, incl_refl.
      + destruct (IH p2 (i / 2) _ _ r L E1 E2) as [E|C].
        * destruct (digest_dec d1 d2) as [|N]; [now left|right].
          exists (b1, d1), (b2, d2). repeat split; try now left. congruence. exact E.
        * right. revert C. apply collision_incl; apply incl_tl, incl_refl.
  Qed.

  (** An accepted layer puts each of its digests on a path to the root. *)
  Lemma layer_path rt d ds i : verify_layer rt d ds = Ok tt -> i < 2 ^ d ->
    length ds = 2 ^ d /\ merkle_root compress d ds = rt /\
    exists path, length path = d /\ snd (climb compress i (nth i ds []) path) = rt /\
      incl (path_pairs compress i (nth i ds []) path) (tree_pairs compress d ds).
  Proof.
    unfold MerkleModel.verify_layer. intros E HI.
    destruct (Nat.eqb_spec (2 ^ d) (length ds)) as [L|]; [|discriminate]. cbn [negb] in E. symmetry in L.
    destruct (fold_inplace_ok compress d ds L) as (ds' & Ef & R). rewrite Ef in E. cbn [rbind] in E.
    rewrite R in E. cbn [of_opt rbind] in E.
    destruct (digest_eqb (merkle_root compress d ds) rt) eqn:Q; [|discriminate]. apply digest_eqb_true in Q.
    split; [exact L|]. split; [exact Q|].
    destruct (climb_siblings compress d ds i L HI d 0) as [C I]; [lia|].
    cbn [Nat.add level] in C, I. rewrite Nat.pow_0_r, Nat.div_1_r, Nat.sub_0_r in *.
    exists (siblings compress ds i 0 d). split; [unfold siblings; now rewrite map_length, seq_length|].
    split; [|exact I]. rewrite C. cbn [snd]. rewrite Nat.div_small by exact HI. exact Q.
  Qed.

  (** What an accepted opening hashes: the branch from the leaf, then the layer. *)
  Definition opening_pairs (index : nat) (vs : list V) (d n : nat) (ds : list digest) (proof : list byte) :=
    path_pairs compress index (leaf vs) (digests_at osz (n - d) proof) ++ tree_pairs compress d ds.

  Lemma opening_path rt index vs d n ds proof rest : verify_layer rt d ds = Ok tt ->
    verify_opening index vs d n ds proof = Ok rest ->
    index < 2 ^ n /\ exists path, length path = n /\ snd (climb compress index (leaf vs) path) = rt /\
      incl (path_pairs compress index (leaf vs) path) (opening_pairs index vs d n ds proof).
  Proof.
    intros EL E. unfold MerkleModel.verify_opening in E.
    destruct (Nat.eqb_spec (2 ^ d) (length ds)) as [L|]; [|discriminate]. cbn [negb] in E.
    destruct (Nat.leb_spec (2 ^ n) index); [discriminate|].
    rewrite (hash_leaf_ok V enc hash osz bsz _ osz_pos bsz_pos) in E. cbn [of_opt rbind] in E.
    destruct (Nat.ltb_spec n d); [discriminate|]. apply rbind_ok in E as [[path r] [ER E]].
    apply read_digests_inv in ER as [-> LP].
    destruct (climb compress index (leaf vs) (digests_at osz (n - d) proof)) as [i c] eqn:EC.
    destruct (nth_error ds i) as [e|] eqn:EN; [|discriminate]. cbn [of_opt rbind] in E.
    destruct (digest_eqb c e) eqn:Q; [|discriminate]. apply digest_eqb_true in Q. subst e.
    split; [exact H|].
    assert (HI : i < 2 ^ d) by (rewrite L; now apply nth_error_lt in EN).
    destruct (layer_path rt d ds i EL HI) as (_ & _ & p2 & L2 & C2 & I2).
    rewrite (nth_error_nth _ _ _ EN) in C2, I2.
    exists (digests_at osz (n - d) proof ++ p2). split; [rewrite app_length; lia|].
    rewrite climb_app, path_pairs_app, EC. split; [exact C2|]. unfold opening_pairs.
    apply incl_app; [apply incl_appl, incl_refl|apply incl_appr, I2].
  Qed.

  Lemma encoding_injective w : fixed_encoding enc w -> forall vs vs', concat (map enc vs) = concat (map enc vs') -> vs = vs'.
  Proof.
    intros (W & LE & IE). induction vs as [|v vs IH]; intros [|v' vs'] E; cbn in E; auto.
    - apply (f_equal (@length _)) in E. rewrite app_length, LE in E. cbn in E. lia.
    - apply (f_equal (@length _)) in E. rewrite app_length, LE in E. cbn in E. lia.
    - assert (enc v = enc v' /\ concat (map enc vs) = concat (map enc vs')) as [E1 E2].
      { apply (f_equal (firstn w)) in E as F. apply (f_equal (skipn w)) in E.
        rewrite <- (LE v) in E at 1. rewrite <- (LE v') in E at 1. rewrite <- (LE v) in F at 1. rewrite <- (LE v') in F at 1.
        rewrite !skipn_app, !skipn_all, !Nat.sub_diag in E. rewrite !firstn_app, !firstn_all, !Nat.sub_diag in F.
        cbn [firstn skipn app] in E, F. rewrite !app_nil_r in F. auto. }
      f_equal; auto.
  Qed.

  Lemma leaf_bind w vs vs' : fixed_encoding enc w -> leaf vs = leaf vs' ->
    vs = vs' \/ leaf_collision hash (concat (map enc vs)) (concat (map enc vs')).
  Proof.
    intros W E. destruct (digest_dec (concat (map enc vs)) (concat (map enc vs'))) as [Q|Q].
    - left. now apply (encoding_injective w W).
    - right. now split.
  Qed.

  (** C32: two openings of the same index accepted against the same root, through whatever layers, batches
      and branches, have the same values, or two inputs hashed while checking them collide. *)
  Theorem merkle_opening_binding w rt n index vs1 d1 ds1 proof1 rest1 vs2 d2 ds2 proof2 rest2 :
    fixed_encoding enc w ->
    verify_layer rt d1 ds1 = Ok tt -> verify_opening index vs1 d1 n ds1 proof1 = Ok rest1 ->
    verify_layer rt d2 ds2 = Ok tt -> verify_opening index vs2 d2 n ds2 proof2 = Ok rest2 ->
    vs1 = vs2 \/ leaf_collision hash (concat (map enc vs1)) (concat (map enc vs2)) \/
    node_collision compress (opening_pairs index vs1 d1 n ds1 proof1) (opening_pairs index vs2 d2 n ds2 proof2).
  Proof.
    intros W L1 O1 L2 O2. 
    destruct (opening_path _ _ _ _ _ _ _ _ L1 O1) as (_ & p1 & N1 & C1 & I1).
    destruct (opening_path _ _ _ _ _ _ _ _ L2 O2) as (_ & p2 & N2 & C2 & I2).
    destruct (climb_bind p1 p2 index (leaf vs1) (leaf vs2) rt) as [E|C]; auto; [congruence| |].
    - destruct (leaf_bind w _ _ W E); auto.
    - right. right. revert C. now apply collision_incl.
  Qed.

  (** C32: an opening accepted against the root of a committed vector has the values of the vector at
      that index, or two inputs hashed while committing and checking collide. *)
  Theorem merkle_commit_binding w sched data b n rt t index vs d ds proof rest :
    fixed_encoding enc w -> schedule n sched -> 0 < b -> length data = 2 ^ n * b ->
    commit sched data b = Ok (rt, n, t) ->
    verify_layer rt d ds = Ok tt -> verify_opening index vs d n ds proof = Ok rest ->
    vs = batch b index data \/ leaf_collision hash (concat (map enc vs)) (concat (map enc (batch b index data))) \/
    node_collision compress (opening_pairs index vs d n ds proof) (tree_pairs compress n (leaf_digests b data)).
  Proof.
    intros W HS Hb L EC EL EO.
    assert (LL : length (leaf_digests b data) = 2 ^ n) by (rewrite map_length; now apply chunks_length).
    destruct (merkle_completeness sched data b n HS Hb L) as (rt' & t' & EC' & R & _).
    rewrite EC' in EC. apply ok_inj in EC. injection EC as -> ->. 
    destruct (opening_path _ _ _ _ _ _ _ _ EL EO) as (HI & p1 & N1 & C1 & I1).
    destruct (climb_siblings compress n _ index LL HI n 0) as [C I]; [lia|].
    cbn [Nat.add level] in C, I. rewrite Nat.pow_0_r, Nat.div_1_r, Nat.sub_0_r in *.
    rewrite (leaf_digest_nth b n) in C, I by auto.
    destruct (climb_bind p1 (siblings compress (leaf_digests b data) index 0 n) index (leaf vs)
      (leaf (batch b index data)) rt) as [E|C']; auto.
    - unfold siblings. now rewrite map_length, seq_length.
    - rewrite C. cbn [snd]. now rewrite Nat.div_small.
    - destruct (leaf_bind w _ _ W E); auto.
    - right. right. revert C'. now apply collision_incl.
  Qed.

  Lemma pairs_inj {A} n (l1 l2 : list A) : length l1 = 2 * n -> length l2 = 2 * n -> pairs l1 = pairs l2 -> l1 = l2.
  Proof.
    revert l1 l2. induction n; intros l1 l2 L1 L2 E.
    - destruct l1, l2; try discriminate. reflexivity.
    - destruct l1 as [|a [|b r]]; [discriminate|cbn in L1; lia|].
      destruct l2 as [|a' [|b' r']]; [discriminate|cbn in L2; lia|].
      cbn [pairs] in E. injection E as -> -> E. do 2 f_equal. apply IHn; cbn in L1, L2; auto; lia.
  Qed.

  Lemma pairs_map_bind (ps qs : list (digest * digest)) : 
    map (fun p => compress (fst p) (snd p)) ps = map (fun p => compress (fst p) (snd p)) qs ->
    ps = qs \/ node_collision compress ps qs.
  Proof.
    revert qs. induction ps as [|p ps IH]; intros [|q qs] E; try discriminate; [now left|].
    cbn [map] in E. injection E as E1 E2. destruct (IH qs E2) as [->|C].
    - destruct p as [a b], q as [a' b']. destruct (digest_dec a a') as [->|]; [destruct (digest_dec b b') as [->|]|].
      + now left.
      + right. exists (a', b), (a', b'). split; [now left|]. split; [now left|]. split; [congruence|exact E1].
      + right. exists (a, b), (a', b'). split; [now left|]. split; [now left|]. split; [congruence|exact E1].
    - right. revert C. apply collision_incl; apply incl_tl, incl_refl.
  Qed.

  Lemma tree_bind n : forall l1 l2, length l1 = 2 ^ n -> length l2 = 2 ^ n ->
    merkle_root compress n l1 = merkle_root compress n l2 ->
    l1 = l2 \/ node_collision compress (tree_pairs compress n l1) (tree_pairs compress n l2).
  Proof.
    induction n; intros l1 l2 L1 L2 E.
    - left. unfold merkle_root in E. cbn [level] in E.
      destruct l1 as [|a [|]], l2 as [|b [|]]; try discriminate. cbn in E. now subst.
    - cbn [tree_pairs]. destruct (IHn (up compress l1) (up compress l2)) as [U|C].
      + rewrite up_length, L1. apply pow2_half.
      + rewrite up_length, L2. apply pow2_half.
      + exact E.
      + destruct (pairs_map_bind (pairs l1) (pairs l2) U) as [P|C].
        * left. apply (pairs_inj (2 ^ n)); auto.
        * right. revert C. apply collision_incl; apply incl_appl, incl_refl.
      + right. revert C. apply collision_incl; apply incl_appr, incl_refl.
  Qed.

  (** C32: a root binds each of its layers. *)
  Theorem merkle_layer_binding rt d ds1 ds2 :
    verify_layer rt d ds1 = Ok tt -> verify_layer rt d ds2 = Ok tt ->
    ds1 = ds2 \/ node_collision compress (tree_pairs compress d ds1) (tree_pairs compress d ds2).
  Proof.
    intros E1 E2. destruct (layer_path _ _ _ 0 E1 (pow2_pos d)) as (L1 & R1 & _).
    destruct (layer_path _ _ _ 0 E2 (pow2_pos d)) as (L2 & R2 & _).
    apply tree_bind; congruence.
  Qed.

  (** C32: a root binds the whole vector of a given length. *)
  Theorem merkle_vector_binding w rt b n data1 data2 :
    fixed_encoding enc w -> 0 < b -> length data1 = 2 ^ n * b -> length data2 = 2 ^ n * b ->
    verify_vector rt data1 b = Ok tt -> verify_vector rt data2 b = Ok tt ->
    data1 = data2 \/
    (exists i, i < 2 ^ n /\ leaf_collision hash (concat (map enc (batch b i data1))) (concat (map enc (batch b i data2)))) \/
    node_collision compress (tree_pairs compress n (leaf_digests b data1)) (tree_pairs compress n (leaf_digests b data2)).
  Proof.
    intros W Hb L1 L2.
    assert (R : forall data, length data = 2 ^ n * b -> verify_vector rt data b = Ok tt ->
      length (leaf_digests b data) = 2 ^ n /\ merkle_root compress n (leaf_digests b data) = rt).
    { intros data L. assert (LL : length (leaf_digests b data) = 2 ^ n) by (rewrite map_length; now apply chunks_length).
      unfold MerkleModel.verify_vector. destruct (Nat.eqb_spec b 0); [lia|].
      rewrite L, Nat.mod_mul, Nat.eqb_refl by lia. cbn [negb].
      replace (omap (hash_leaf V enc hash bsz) (chunks b data)) with (Some (leaf_digests b data)).
      - cbn [of_opt rbind]. destruct (fold_inplace_ok compress n _ LL) as (ds & -> & E). cbn [rbind].
        rewrite E. cbn [of_opt rbind]. destruct (digest_eqb _ rt) eqn:Q; [|discriminate]. now apply digest_eqb_true in Q.
      - symmetry. apply omap_spec. split; [apply map_length|]. intros i vs Ei. rewrite nth_error_map, Ei.
        cbn. now rewrite (hash_leaf_ok V enc hash osz bsz _ osz_pos bsz_pos). }
    intros E1 E2. destruct (R data1 L1 E1) as [D1 R1], (R data2 L2 E2) as [D2 R2].
    destruct (tree_bind n _ _ D1 D2) as [E|C]; [congruence| |auto].
    assert (G : (forall i, i < 2 ^ n -> batch b i data1 = batch b i data2) \/
      exists i, i < 2 ^ n /\ leaf_collision hash (concat (map enc (batch b i data1))) (concat (map enc (batch b i data2)))).
    { assert (P : forall i, i < 2 ^ n -> batch b i data1 = batch b i data2 \/
        leaf_collision hash (concat (map enc (batch b i data1))) (concat (map enc (batch b i data2)))).
      { intros i Hi. apply (leaf_bind w); auto.
        rewrite <- (leaf_digest_nth b n data1 i), <- (leaf_digest_nth b n data2 i) by auto. now rewrite E. }
      clear - P. generalize dependent (2 ^ n). intros m. induction m; intros P.
      - left. lia.
      - destruct IHm as [A|(i & Hi & C)]; [intros; apply P; lia| |right; exists i; split; [lia|exact C]].
        destruct (P m) as [Q|Q]; [lia| |right; exists m; split; [lia|exact Q]].
        left. intros i Hi. destruct (Nat.eq_dec i m) as [->|]; [exact Q|apply A; lia]. }
    destruct G as [G|G]; [left|right; now left].
    apply nth_error_ext. intros i. destruct (Nat.lt_ge_cases i (2 ^ n * b)) as [Hi|Hi].
    - assert (Hq : i / b < 2 ^ n) by (apply Nat.div_lt_upper_bound; lia).
      specialize (G (i / b) Hq). unfold batch in G.
      apply (f_equal (fun l => nth_error l (i mod b))) in G.
      rewrite !nth_error_firstn, !nth_error_skipn in G.
      assert (i mod b < b) by (apply Nat.mod_upper_bound; lia). destruct (Nat.ltb_spec (i mod b) b); [|lia].
      replace (i / b * b + i mod b) with i in G; [exact G|]. rewrite Nat.mul_comm. apply Nat.div_mod. lia.
    - rewrite !(proj2 (nth_error_None _ _)) by lia. reflexivity.
  Qed.

  (** C31: checking an opening never panics, whatever the claimed values, digests and proof bytes. *)
  Theorem merkle_verify_no_panic index vs d n ds proof : d <= n ->
    verify_opening index vs d n ds proof <> Panic.
  Proof.
    intros H. unfold MerkleModel.verify_opening.
    destruct (Nat.eqb_spec (2 ^ d) (length ds)) as [L|]; [|discriminate]. cbn [negb].
    destruct (Nat.leb_spec (2 ^ n) index) as [|HI]; [discriminate|].
    rewrite (hash_leaf_ok V enc hash osz bsz _ osz_pos bsz_pos). cbn [of_opt rbind].
    destruct (Nat.ltb_spec n d); [lia|].
    assert (R : forall k tape, read_digests osz utf8 k tape <> Panic).
    { induction k; intros tape; [discriminate|]. cbn [read_digests]. cbn [de]. unfold take.
      destruct (length tape <? osz); [discriminate|]. cbn [rbind].
      specialize (IHk (skipn osz tape)). destruct (read_digests osz utf8 k (skipn osz tape)) as [[]| |]; cbn; congruence. }
    specialize (R (n - d) proof). destruct (read_digests osz utf8 (n - d) proof) as [[path rest]| |] eqn:E; cbn [rbind]; try congruence.
    apply read_digests_inv in E as [_ LP].
    assert (I : forall path i x, fst (climb compress i x path) = i / 2 ^ length path).
    { clear. induction path as [|b p IH]; intros i x; [cbn [climb length fst]; now rewrite Nat.pow_0_r, Nat.div_1_r|].
      rewrite climb_cons, IH. cbn [length]. change (i / 2 ^ 1 / 2 ^ length p = i / 2 ^ S (length p)).
      now rewrite div_div. }
    specialize (I path index (leaf vs)). destruct (climb compress index (leaf vs) path) as [i x]. cbn [fst] in I.
    assert (i < length ds).
    { rewrite <- L, I, LP. apply div_lt. now replace (n - d + d) with n by lia. }
    destruct (nth_error_ex ds i) as [e ->]; [auto|]. cbn [of_opt rbind]. destruct (digest_eqb x e); discriminate.
  Qed.
End Merkle.

(** ** Departures *)

(** A layer depth greater than the tree depth underflows in verify_opening instead of being refused. *)
Theorem merkle_layer_above_leaves_refuted : exists index vs d n ds proof,
  verify_opening N (fun v => [v]) toy_hash 2 3 (fun a b => toy_hash (a ++ b)) (fun _ => true) index vs d n ds proof = Panic.
Proof. exists 0, [], 1, 0, [[]; []], []. reflexivity. Qed.

(** commit_iterated with fewer batches than 2^log_len reads uninitialised memory (here: [Panic]) instead of
    returning an error. *)
Theorem merkle_commit_iterated_short_refuted : exists sched chs n,
  length chs < 2 ^ n /\ Permutation (sched 0) (seq 0 (length chs)) /\
  (forall i, 0 < i <= n -> Permutation (sched i) (seq 0 (2 ^ (n - i)))) /\
  commit_iterated N (fun v => [v]) toy_hash 3 (fun a b => toy_hash (a ++ b)) sched chs n = Panic.
Proof.
  exists (fun i => match i with 0 => [0] | _ => [0] end), [[5%N]], 1.
  split; [cbn; lia|]. split; [apply Permutation_refl|]. split; [|reflexivity].
  intros i Hi. assert (i = 1) as -> by lia. apply Permutation_refl.
Qed.

(** proof_size counts one digest per query too few: the proof of a layer and its openings is longer. *)
Theorem merkle_proof_size_refuted : forall osz n d q, 0 < osz -> 0 < q -> d < n ->
  exists s, proof_size osz (2 ^ n) q d = Ok s /\ s + q * osz = (q * (n - d) + 2 ^ d) * osz.
Proof.
  intros osz n d q Ho Hq H. unfold proof_size. rewrite is_pow2_true, Nat.log2_pow2 by lia. cbn [negb].
  destruct (Nat.ltb_spec n d); [lia|]. destruct (Nat.ltb_spec (n - d) 1); [lia|].
  eexists. split; [reflexivity|]. replace (n - d) with (S (n - d - 1)) at 2 by lia. nia.
Qed.
(** ... and with the openings at the leaf layer it underflows. *)
Theorem merkle_proof_size_leaf_refuted : forall osz n q, proof_size osz (2 ^ n) q n = Panic.
Proof.
  intros. unfold proof_size. rewrite is_pow2_true, Nat.log2_pow2 by lia. cbn [negb].
  destruct (Nat.ltb_spec n n); [lia|]. now rewrite Nat.sub_diag.
Qed.

(** Non-vacuity: eight elements in batches of two, reversed write orders, opened at layer 1. *)
Example merkle_ex :
  let enc := fun v => le_bytes 2 v in
  let compress := fun a b => toy_hash (a ++ b) in
  let sched := fun i => rev (seq 0 (2 ^ (2 - i))) in
  let data := [10; 20; 30; 40; 50; 60; 70; 80]%N in
  schedule 2 sched /\
  exists rt t ld proof, commit N enc toy_hash 3 compress sched data 2 = Ok (rt, 2, t) /\
    layer t 1 = Ok ld /\ prove_opening t 1 3 = Ok proof /\
    verify_opening N enc toy_hash 2 3 compress (fun _ => true) 3 [70; 80]%N 1 2 ld (proof ++ [1]%N) = Ok [1]%N /\
    verify_opening N enc toy_hash 2 3 compress (fun _ => true) 3 [70; 81]%N 1 2 ld proof = Err /\
    verify_vector N enc toy_hash 3 compress rt data 2 = Ok tt.
Proof.
  cbv zeta. split.
  - intros i _. apply Permutation_sym, Permutation_rev.
  - eexists _, _, _, _. split; [vm_compute; reflexivity|]. split; [vm_compute; reflexivity|].
    split; [vm_compute; reflexivity|]. split; [vm_compute; reflexivity|]. split; vm_compute; reflexivity.
Qed.
Example merkle_encoding_ex : fixed_encoding (fun b : bool => [if b then 1%N else 0%N]) 1.
Proof. split; [lia|]. split; [reflexivity|]. intros [|] [|]; auto; discriminate. Qed.
