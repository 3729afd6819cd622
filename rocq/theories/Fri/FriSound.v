(** C63: what an accepted FRI proof says about the committed oracles. *)
Require Import Coq.NArith.NArith Coq.setoid_ring.Ring Coq.Arith.Arith Coq.Lists.List Coq.Bool.Bool Lia.
From Verif Require Import Base.Fld Base.Lists Base.Sums Base.Poly Base.NatBits Base.Chunks Field.Examples
  Math.MleSpec Math.UnivariateModel Math.MleModel Math.MleProofs Math.TensorProps
  Ntt.NttSpec Ntt.SubspaceTheory Ntt.TwiddleModel Ntt.NttModel Ntt.NttProofs Ntt.NttCompose Ntt.NttProps
  Code.RsModel Code.RsProps Code.FriFoldModel Code.FriFoldProps
  Transcript.SerModel Transcript.SerProofs Merkle.MerkleModel Merkle.MerkleSpec Merkle.MerkleProofs Merkle.MerkleProps
  Fri.FriModel Fri.FriParamsProps Fri.FriFolds Fri.FriProofs Fri.FriProps.
Import ListNotations.
Local Close Scope N_scope.
Local Open Scope nat_scope.

Lemma skipn_nth_cons {A} j (l : list A) d : j < length l -> skipn j l = nth j l d :: skipn (S j) l.
Proof.
  revert l. induction j as [|j IH]; intros [|a l] H; cbn [length] in H; try lia; [reflexivity|].
  cbn [skipn nth]. rewrite IH by lia. reflexivity.
Qed.

Lemma last_default {A} (l : list A) x y : l <> [] -> last l x = last l y.
Proof. induction l as [|a [|b l] IH]; intros H; [easy|reflexivity|]. cbn [last] in *. apply IH. discriminate. Qed.
Lemma last_nth {A} (l : list A) d x : last l d = nth (length l) (d :: l) x.
Proof.
  revert d. induction l as [|a l IH]; intros d; [reflexivity|]. cbn [length].
  change (nth (S (length l)) (d :: a :: l) x) with (nth (length l) (a :: l) x). rewrite <- IH.
  destruct l as [|b l]; [reflexivity|]. change (last (a :: b :: l) d) with (last (b :: l) d). now apply last_default.
Qed.

(** ** Specification *)
Section Spec.
  Variable F : field.
  Variable basis : list F.
  Variable enc : F -> list byte.
  Variable hash : list byte -> list byte.
  Variable osz bsz : nat.
  Variable compress : list byte -> list byte -> list byte.
  Variable utf8 : list byte -> bool.
  Notation leaf vs := (hash (concat (map enc vs))).
  Notation leaf_digests b data := (map (fun vs => leaf vs) (Chunks.chunks b data)).

  (** [root] is the Merkle root of [data], in 2^n batches of [b] scalars. *)
  Definition commits (root : list byte) (n b : nat) (data : list F) : Prop :=
    length data = 2 ^ n * b /\ merkle_root compress n (leaf_digests b data) = root.

  (** The value at [y] of the fold of [oracle]: a vector of 2^n interleaved batches of 2^lbs scalars is
      the evaluation over the domain of a unique tuple of polynomials with 2^n coefficients; folding
      evaluates the coefficients partially at [challenges]. *)
  Definition folds_to (n lbs : nat) (oracle challenges : list F) (y : nat) (x : F) : Prop :=
    exists msg, interleaved_codeword F basis n n lbs msg oracle /\
      nth_error (folded_codeword F basis n n lbs msg challenges) y = Some x.

  (** The proof [tape] exhibits a collision with the committed vector: it contains an accepted opening of
      the commitment, and two different inputs hashed in checking the opening and in committing to
      the vector have the same digest. *)
  Definition opening_collision (root : list byte) (n b : nat) (data : list F) (tape : list byte) : Prop :=
    exists index vs d ds proof rest,
      (exists pre, tape = pre ++ concat (map enc vs) ++ proof) /\ (exists pre post, tape = pre ++ concat ds ++ post) /\
      verify_layer compress root d ds = Ok tt /\ verify_opening F enc hash osz bsz compress utf8 index vs d n ds proof = Ok rest /\
      (leaf_collision hash (concat (map enc vs)) (concat (map enc (batch b index data))) \/
       node_collision compress (opening_pairs F enc hash osz compress index vs d n ds proof) (tree_pairs compress n (leaf_digests b data))).

  (** The vector at the start of the proof collides with the committed one. *)
  Definition terminal_collision (n b : nat) (data : list F) (tape : list byte) : Prop :=
    exists terminate post, tape = concat (map enc terminate) ++ post /\ length terminate = length data /\
      ((exists i, i < 2 ^ n /\ leaf_collision hash (concat (map enc (batch b i terminate))) (concat (map enc (batch b i data)))) \/
       node_collision compress (tree_pairs compress n (leaf_digests b terminate)) (tree_pairs compress n (leaf_digests b data))).
End Spec.

Section Sound.
  Variable F : field.
  Hypothesis H2 : char2 F.
  Local Open Scope fld_scope.
  Add Ring Fring : (f_ring F).
  Variable basis : list F.
  Hypothesis BI : lin_indep basis.
  Hypothesis B1 : nth 0 basis 0 = 1.
  Variable ts : list (twiddle F).
  Hypothesis HT : tables F basis ts.
  Variable enc : F -> list byte.
  Variable dec : list byte -> res (F * list byte).
  Variable w : nat.
  Hypothesis enc_fixed : fixed_encoding enc w.
  Hypothesis dec_inv : forall t x rest, dec t = Ok (x, rest) -> t = enc x ++ rest.
  Variable hash : list byte -> list byte.
  Variable osz bsz : nat.
  Variable compress : list byte -> list byte -> list byte.
  Variable utf8 : list byte -> bool.
  Hypothesis hash_len : forall x, length (hash x) = osz.
  Hypothesis compress_len : forall x y, length (compress x y) = osz.
  Hypothesis osz_pos : (0 < osz)%nat.
  Hypothesis bsz_pos : (0 < bsz)%nat.

  Notation commits := (commits F enc hash compress).
  Notation opening_collision := (opening_collision F enc hash osz bsz compress utf8).
  Notation terminal_collision := (terminal_collision F enc hash compress).
  Notation folds_to := (folds_to F basis).

  (** Every vector is the evaluation of polynomials of full degree. *)
  Lemma interpolate n lbs (O : list F) : (n <= length basis)%nat -> length O = (2 ^ (n + lbs))%nat ->
    exists msg, interleaved_codeword F basis n n lbs msg O.
  Proof.
    intros L LO. set (data := map (fun x => [x]) O).
    set (sh := mkShape lbs n 0).
    assert (WP : well_packed 0 data) by (intros x Hx; apply in_map_iff in Hx as (y & <- & _); reflexivity).
    assert (V : valid 0 (length basis) (length data) sh 0 0 0).
    { constructor; cbn; try lia. exists (n + lbs)%nat. unfold data. rewrite map_length. split; [exact LO|]. left. lia. }
    destruct (ntt_roundtrip F H2 basis BI B1 ts HT 0 data sh 0 0 0 WP V) as [_ (out & E1 & LOut & WO & E2)].
    destruct (ntt_forward_evaluates F H2 basis BI B1 ts HT 0 out sh 0 0 0 WO) as (o2 & E3 & _ & _ & HV); [now rewrite LOut|].
    rewrite E2 in E3. injection E3 as <-.
    exists (fun i => scalar_at 0 out i). split; [exact LO|]. intros y x Hy Hx.
    specialize (HV 0%nat y x). cbn [sh log_x log_y log_z] in HV. specialize (HV ltac:(cbn; lia) Hy Hx). cbv zeta in HV.
    rewrite Nat.add_0_r, Nat.sub_0_r in HV. unfold tensor_pos in HV. rewrite !Nat.mul_0_l, !Nat.add_0_l in HV.
    rewrite <- scalar_concat in HV by exact WP.
    assert (CD : concat data = O) by (unfold data; clear; induction O as [|a l IH]; [reflexivity|]; cbn; now rewrite IH).
    rewrite CD in HV. rewrite HV. apply novel_poly_ext. intros j Hj. rewrite Nat.div_small by exact Hy. reflexivity.
  Qed.

  (** ** Folding arbitrary vectors *)
  Variable N : nat.
  Hypothesis LN : (N <= length basis)%nat.
  Notation D := (domain_basis basis N).
  Variable vts : list (twiddle F).
  Hypothesis VT : tables F D vts.
  Hypothesis DI : lin_indep D.
  Hypothesis D1 : nth 0 D 0 = 1.

  Lemma chunk_folds n (O chs : list F) ci x : (n <= N)%nat -> (length chs <= n)%nat -> length O = (2 ^ n)%nat -> (ci < 2 ^ (n - length chs))%nat ->
    fold_chunk vts n ci (batch (2 ^ length chs) ci O) chs = Some x -> folds_to n 0 O chs ci x.
  Proof.
    intros Ln Lc LO Hc E. destruct (interpolate n 0 O) as [msg IC]; [lia|now rewrite Nat.add_0_r|]. exists msg. split; [exact IC|].
    destruct IC as [_ HV]. set (a := length chs) in *.
    assert (PW : (2 ^ n = 2 ^ (n - a) * 2 ^ a)%nat) by (rewrite <- Nat.pow_add_r; f_equal; lia).
    rewrite (fold_chunk_correct F H2 D DI D1 vts VT n n msg ci) in E; fold a.
    - rewrite <- E. rewrite (domain_domain F H2 basis BI) by lia. unfold folded_codeword. cbv zeta. fold a. rewrite Nat.sub_0_r.
      rewrite nth_error_map. rewrite nth_error_seq. rewrite (proj2 (Nat.ltb_lt _ _)) by exact Hc. reflexivity.
    - rewrite db_length. exact Ln.
    - lia.
    - exact Hc.
    - unfold batch. rewrite firstn_length, skipn_length, LO. nia.
    - intros v Hv. rewrite (domain_domain F H2 basis BI) by lia. unfold batch. rewrite nth_firstn_lt by auto. rewrite nth_skipn'.
      specialize (HV (ci * 2 ^ a + v)%nat 0%nat). rewrite Nat.pow_0_r, Nat.mul_1_r, Nat.add_0_r in HV. rewrite HV; [|rewrite PW; nia|lia].
      apply novel_poly_ext. intros j Hj. f_equal. lia.
  Qed.

  Lemma interleaved_folds n lbs (O chs tensor scratch : list F) ci x : (n <= N)%nat -> (lbs <= length chs <= n + lbs)%nat ->
    length O = (2 ^ (n + lbs))%nat -> (ci < 2 ^ (n + lbs - length chs))%nat ->
    length tensor = (2 ^ lbs)%nat -> (forall x, (x < 2 ^ lbs)%nat -> nth x tensor 0 = eqw (firstn lbs chs) x) ->
    (2 ^ (length chs - lbs) <= length scratch)%nat ->
    fold_interleaved_chunk 0 vts n lbs ci (batch (2 ^ length chs) ci O) tensor (skipn lbs chs) scratch = Some x -> folds_to n lbs O chs ci x.
  Proof.
    intros Ln Lc LO Hc LT HTn LS E. destruct (interpolate n lbs O) as [msg IC]; [lia|auto|]. exists msg. split; [exact IC|].
    destruct IC as [_ HV]. set (a := length chs) in *. assert (SL : length (skipn lbs chs) = (a - lbs)%nat) by (rewrite skipn_length; reflexivity).
    assert (PW : (2 ^ (n + lbs) = 2 ^ (n + lbs - a) * 2 ^ a)%nat) by (rewrite <- Nat.pow_add_r; f_equal; lia).
    assert (PA : (2 ^ a = 2 ^ (a - lbs) * 2 ^ lbs)%nat) by (rewrite <- Nat.pow_add_r; f_equal; lia).
    assert (DD : (n - (a - lbs) = n + lbs - a)%nat) by lia.
    rewrite (fold_interleaved_chunk_correct F H2 D DI D1 vts VT 0 n n lbs msg ci _ _ (firstn lbs chs)) in E; rewrite ?SL.
    - rewrite <- E. rewrite SL. rewrite !(domain_domain F H2 basis BI) by lia. unfold folded_codeword. cbv zeta. fold a.
      rewrite nth_error_map, nth_error_seq, DD. rewrite (proj2 (Nat.ltb_lt _ _)) by exact Hc. cbn [option_map]. f_equal.
      apply novel_poly_ext. intros j Hj. rewrite firstn_skipn. replace (lbs + (a - lbs))%nat with a by lia. reflexivity.
    - rewrite db_length. exact Ln.
    - lia.
    - rewrite firstn_length. fold a. lia.
    - right. lia.
    - rewrite DD. exact Hc.
    - unfold batch. rewrite firstn_length, skipn_length, LO. rewrite Nat.sub_0_r, Nat.pow_0_r, Nat.mul_1_r. replace (a - lbs + lbs)%nat with a by lia. nia.
    - exact LS.
    - exact HTn.
    - rewrite Nat.sub_0_r, Nat.pow_0_r. lia.
    - intros v y Hv Hy. rewrite (domain_domain F H2 basis BI) by lia. unfold batch.
      assert (VX : (v * 2 ^ lbs + y < 2 ^ a)%nat) by (rewrite PA; nia).
      rewrite nth_firstn_lt by auto. rewrite nth_skipn'.
      replace (ci * 2 ^ a + (v * 2 ^ lbs + y))%nat with ((ci * 2 ^ (a - lbs) + v) * 2 ^ lbs + y)%nat by (rewrite PA; lia).
      apply HV; auto. assert (2 ^ n = 2 ^ (n + lbs - a) * 2 ^ (a - lbs))%nat by (rewrite <- Nat.pow_add_r; f_equal; lia). nia.
  Qed.

  (** ** Openings *)
  Lemma read_digests_split n : forall tape path rest, read_digests osz utf8 n tape = Ok (path, rest) ->
    tape = concat path ++ rest /\ length path = n.
  Proof.
    induction n; intros tape path rest E; cbn [read_digests] in *.
    - injection E as <- <-. auto.
    - apply rbind_ok in E as [[d r] [E1 E]]. apply rbind_ok in E as [[ds r2] [E2 E]]. injection E as <- <-.
      cbn [de] in E1. apply take_ok in E1 as [-> Ld]. apply IHn in E2 as [-> L]. cbn [concat length]. rewrite <- app_assoc. auto.
  Qed.
  Lemma verify_opening_suffix index vs d n ds tape rest :
    verify_opening F enc hash osz bsz compress utf8 index vs d n ds tape = Ok rest -> exists br, tape = br ++ rest.
  Proof.
    unfold verify_opening. destruct (negb _); [discriminate|]. destruct (_ <=? _)%nat; [discriminate|].
    intros E. apply rbind_ok in E as (lf & _ & E). destruct (_ <? _)%nat; [discriminate|].
    apply rbind_ok in E as ((br & r) & E1 & E). apply read_digests_split in E1 as [-> _].
    destruct (climb _ _ _ _) as [i c]. apply rbind_ok in E as (dd & _ & E). destruct (digest_eqb _ _); [|discriminate].
    injection E as <-. eauto.
  Qed.
  Lemma read_scalars_inv n : forall tape vs rest, read_scalars F dec n tape = Ok (vs, rest) ->
    length vs = n /\ tape = concat (map enc vs) ++ rest.
  Proof.
    unfold read_scalars. induction n as [|n IH]; intros tape vs rest E; cbn [de_items] in E.
    - injection E as <- <-. auto.
    - apply rbind_ok in E as ((x & t1) & E1 & E). apply dec_inv in E1. subst tape. apply rbind_ok in E as ((ys & t2) & E2 & E).
      injection E as <- <-. apply IH in E2 as [L ->]. cbn [length map concat]. rewrite <- app_assoc. auto.
  Qed.

  Lemma commits_commit root n a data : commits root n (2 ^ a) data -> exists t,
    commit F enc hash bsz compress (fun i => seq 0 (2 ^ (n - i))) data (2 ^ a) = Ok (root, n, t) /\
    verify_vector F enc hash bsz compress root data (2 ^ a) = Ok tt /\ schedule n (fun i => seq 0 (2 ^ (n - i))).
  Proof.
    intros [L R]. assert (HS : schedule n (fun i => seq 0 (2 ^ (n - i)))) by (intros i Hi; apply Permutation.Permutation_refl).
    destruct (merkle_completeness F enc hash osz bsz compress utf8 hash_len compress_len osz_pos bsz_pos _ data (2 ^ a) n HS (pow2_pos a) L)
      as (root' & t & E & R' & V & _). exists t. assert (root' = root) as <- by congruence. auto.
  Qed.

  Lemma opening_bound T root n a data d ds index tape vs rest :
    commits root n (2 ^ a) data -> verify_layer compress root d ds = Ok tt ->
    (exists pre, T = pre ++ tape) -> (exists pre post, T = pre ++ concat ds ++ post) ->
    verify_coset_opening F enc dec hash osz bsz compress utf8 index a d n ds tape = Ok (vs, rest) ->
    opening_collision root n (2 ^ a) data T \/
    (vs = batch (2 ^ a) index data /\ (index < 2 ^ n)%nat /\ exists pre, T = pre ++ rest).
  Proof.
    intros CM VL ST SD E. destruct (commits_commit root n a data CM) as (t & EC & _ & HS). destruct CM as [L R].
    unfold verify_coset_opening in E. apply rbind_ok in E as ((vs' & t1) & E1 & E). apply rbind_ok in E as (t2 & E2 & E). injection E as <- <-.
    apply read_scalars_inv in E1 as [LV ->].
    destruct (opening_path F enc hash osz bsz compress utf8 osz_pos bsz_pos root index vs' d n ds t1 t2 VL E2) as (HI & _).
    destruct (merkle_commit_binding F enc hash osz bsz compress utf8 hash_len compress_len osz_pos bsz_pos w _ data (2 ^ a) n root t index vs' d ds t1 t2
      enc_fixed HS (pow2_pos a) L EC VL E2) as [E|C].
    - right. split; [exact E|]. split; [exact HI|]. destruct ST as [pre ->].
      assert (TL : exists br, t1 = br ++ t2) by (eapply verify_opening_suffix; eauto). destruct TL as [br ->].
      exists (pre ++ concat (map enc vs') ++ br). now rewrite <- !app_assoc.
    - left. exists index, vs', d, ds, t1, t2. split; [exact ST|]. split; [exact SD|]. auto.
  Qed.

  (* ---------------------------------------------------------------- *)
  (** ** Queries *)
  Variables ld lr lbs : nat.
  Hypothesis EN : N = (ld + lr)%nat.
  Variable ch : list F.
  Hypothesis LCH : length ch = (ld + lbs)%nat.
  Variable arities : list nat.
  Variable q : nat.
  Hypothesis SUM : (list_sum arities < ld + lbs)%nat.
  Hypothesis FIRST : forall a r, arities = a :: r -> (lbs <= a)%nat.
  Notation LL := (ld + lr + lbs)%nat.
  Notation p := (mkParams (mkRs D ld lr) lbs arities q).
  (** The number of challenges consumed before oracle [j], the arity with which it is opened, its domain,
      its interleaving and the challenges that fold it. *)
  Definition sums (j : nat) : nat := list_sum (firstn j arities).
  Definition cosets (j : nat) : nat := nth j arities (ld + lbs - list_sum arities)%nat.
  Definition oracle_len (j : nat) : nat := match j with O => (ld + lr)%nat | _ => (LL - sums j)%nat end.
  Definition oracle_batch (j : nat) : nat := match j with O => lbs | _ => O end.
  Definition slice (j : nat) : list F := firstn (cosets j) (skipn (sums j) ch).
  Variable root : list byte.
  Variable roots : list (list byte).
  Variable tensor : list F.
  Hypothesis LT : length tensor = (2 ^ lbs)%nat.
  Hypothesis HTn : forall x, (x < 2 ^ lbs)%nat -> nth x tensor 0 = eqw (firstn lbs ch) x.
  Notation v := (mkVerifier F p root roots tensor (skipn lbs ch)).
  Variable O : nat -> list F.
  Notation k := (length arities).
  Hypothesis LR : length roots = k.
  Hypothesis COM : forall j, (j <= k)%nat -> commits (nth j (root :: roots) []) (LL - sums j - cosets j) (2 ^ cosets j) (O j).
  Variable T : list byte.
  Definition coll : Prop := exists j, (j <= k)%nat /\ opening_collision (nth j (root :: roots) []) (LL - sums j - cosets j) (2 ^ cosets j) (O j) T.

  Lemma sums_S j : (j < k)%nat -> sums (S j) = (sums j + cosets j)%nat.
  Proof.
    intros H. unfold sums, cosets. revert H. generalize (ld + lbs - list_sum arities)%nat. generalize arities. clear. intros l dflt. revert j.
    induction l as [|a l IH]; intros [|j] H; cbn [length] in H; try lia; rewrite !firstn_cons; cbn [nth].
    - cbn [firstn]. unfold list_sum. cbn [fold_right]. lia.
    - change (list_sum (a :: firstn (S j) l)) with (a + list_sum (firstn (S j) l))%nat.
      change (list_sum (a :: firstn j l)) with (a + list_sum (firstn j l))%nat. rewrite IH by lia. lia.
  Qed.
  Lemma sums_k : sums k = list_sum arities. Proof. unfold sums. now rewrite firstn_all. Qed.
  Lemma sums_le i j : (i <= j)%nat -> (sums i <= sums j)%nat.
  Proof.
    unfold sums. intros H. replace j with (i + (j - i))%nat by lia. rewrite firstn_add, list_sum_app. lia.
  Qed.
  Lemma sums_coset j : (j <= k)%nat -> (sums j + cosets j <= ld + lbs)%nat.
  Proof.
    intros H. destruct (Nat.eq_dec j k) as [->|].
    - rewrite sums_k. unfold cosets. rewrite nth_overflow by lia. lia.
    - rewrite <- sums_S by lia. pose proof (sums_le (S j) k ltac:(lia)). rewrite sums_k in *. lia.
  Qed.
  Lemma sums_1 : (0 < k)%nat -> (lbs <= sums 1)%nat.
  Proof.
    intros H. unfold sums. destruct arities as [|a r]; [cbn in H; lia|]. cbn [firstn]. unfold list_sum. cbn [fold_right]. pose proof (FIRST a r eq_refl). lia.
  Qed.
  Lemma slice_length j : (j <= k)%nat -> length (slice j) = cosets j.
  Proof. intros H. unfold slice. rewrite firstn_length, skipn_length, LCH. pose proof (sums_coset j H). lia. Qed.
  Lemma oracle_length j : (1 <= j <= k)%nat -> length (O j) = (2 ^ (LL - sums j))%nat.
  Proof.
    intros H. destruct (COM j ltac:(lia)) as [L _]. rewrite L, <- Nat.pow_add_r. f_equal. pose proof (sums_coset j ltac:(lia)). lia.
  Qed.

  Lemma loop_sound ars : forall dn layers index next tape rest,
    arities = dn ++ ars -> (1 <= length dn)%nat ->
    let j := length dn in
    let depths := scan_depths q (LL - sums j) ars in
    length layers = length depths ->
    verify_layers compress (skipn j (root :: roots)) depths layers = Ok tt ->
    (forall l, In l layers -> exists pre post, T = pre ++ concat l ++ post) -> (exists pre, T = pre ++ tape) ->
    query_loop F enc dec hash osz bsz compress utf8 v vts ars layers depths index (LL - sums j) (sums j - lbs) next (O k) tape = Ok rest ->
    coll \/
    (nth_error (O j) index = Some next /\
     (forall i, (j <= i < k)%nat -> exists x, folds_to (LL - sums i) 0 (O i) (slice i) (index / 2 ^ (sums (S i) - sums j)) x /\
        nth_error (O (S i)) (index / 2 ^ (sums (S i) - sums j)) = Some x) /\ exists pre, T = pre ++ rest).
  Proof.
    induction ars as [|a ars IH]; intros dn layers index next tape rest EA LDN j depths LLY VL SL ST E.
    - assert (JK : j = k) by (rewrite EA, app_length; cbn [length]; unfold j; lia). unfold depths in E. cbn [scan_depths query_loop] in E.
      assert (E' : rbind (of_opt (nth_error (O k) index)) (fun x => if feqb next x then Ok tape else Err) = Ok rest) by (destruct layers; exact E).
      apply rbind_ok in E' as (x & E1 & E2). destruct (nth_error (O k) index) as [y|] eqn:EY; [|discriminate]. injection E1 as ->.
      destruct (feqb_spec F next x) as [->|]; [|discriminate]. injection E2 as <-. right. rewrite JK. split; [exact EY|]. split; [lia|exact ST].
    - assert (JK : (j < k)%nat) by (rewrite EA, app_length; cbn [length]; unfold j; lia).
      assert (CJ : cosets j = a) by (unfold cosets; rewrite EA at 1; rewrite app_nth2 by (unfold j; lia); unfold j; rewrite Nat.sub_diag; reflexivity).
      pose proof (sums_S j JK) as SS. rewrite CJ in SS. pose proof (sums_coset j ltac:(lia)) as SC. rewrite CJ in SC.
      pose proof (sums_le 1 j ltac:(unfold j; lia)) as S1. pose proof (sums_1 ltac:(lia)) as S2.
      unfold depths in *. cbn [scan_depths] in *. set (dp := optimal_verify_layer q (LL - sums j - a)) in *.
      destruct layers as [|lay layers]; [cbn in LLY; lia|]. cbn [query_loop] in E.
      assert (SK : skipn j (root :: roots) = nth j (root :: roots) [] :: skipn (S j) (root :: roots)).
      { apply skipn_nth_cons. cbn [length]. rewrite LR. lia. }
      rewrite SK in VL. cbn [verify_layers] in VL. apply rbind_ok in VL as ([] & VL1 & VL2).
      apply rbind_ok in E as (lnc & E1 & E). unfold sub_or_panic in E1. destruct (Nat.ltb_spec (LL - sums j) a); [discriminate|]. injection E1 as <-.
      apply rbind_ok in E as ((vs & t1) & E2 & E).
      pose proof (COM j ltac:(lia)) as CMJ. rewrite CJ in CMJ.
      destruct (opening_bound T _ _ a (O j) dp lay (Nat.shiftr index a) tape vs t1 CMJ VL1 ST (SL lay (or_introl eq_refl)) E2) as [C|(-> & HI & ST1)].
      { left. exists j. rewrite CJ. split; [lia|exact C]. }
      apply rbind_ok in E as (x & E3 & E). destruct (negb (feqb next x)) eqn:EQ; [discriminate|].
      destruct (feqb_spec F next x) as [<-|]; [|discriminate]. clear EQ.
      apply rbind_ok in E as (ll & E4 & E). unfold sub_or_panic in E4. cbn [v_params fp_code] in E4. unfold rs_log_len in E4. cbn [rs_log_dim rs_log_inv_rate] in E4.
      destruct (Nat.ltb_spec (ld + lr) (sums j - lbs)); [discriminate|]. injection E4 as <-.
      apply rbind_ok in E as (chs & E5 & E). unfold slice_of in E5. cbn [v_challenges] in E5. rewrite skipn_length, LCH in E5.
      destruct (_ <? _)%nat; [discriminate|]. injection E5 as <-.
      apply rbind_ok in E as (nx & E6 & E).
      rewrite Lists.skipn_add in E6. replace (lbs + (sums j - lbs))%nat with (sums j) in E6 by lia.
      assert (ESL : slice j = firstn a (skipn (sums j) ch)) by (unfold slice; now rewrite CJ). rewrite <- ESL in E6.
      replace (ld + lr - (sums j - lbs))%nat with (LL - sums j)%nat in E6 by lia.
      destruct (fold_chunk _ _ _ _ _) as [nx'|] eqn:EF; [|discriminate]. injection E6 as ->.
      assert (FT : folds_to (LL - sums j) 0 (O j) (slice j) (Nat.shiftr index a) nx).
      { apply chunk_folds; rewrite ?slice_length, ?CJ by lia; auto; try lia. - apply oracle_length. unfold j in *. lia. }
      (* the rest *)
      assert (DJ : length (dn ++ [a]) = S j) by (rewrite app_length; cbn [length]; unfold j; lia).
      assert (LSJ : (LL - sums j - a)%nat = (LL - sums (S j))%nat) by lia.
      rewrite LSJ in E. replace (sums j - lbs + a)%nat with (sums (S j) - lbs)%nat in E by lia.
      destruct (IH (dn ++ [a]) layers (Nat.shiftr index a) nx t1 rest) as [C|(N1 & N2 & ST2)].
      + now rewrite <- app_assoc.
      + rewrite DJ. lia.
      + rewrite DJ, <- LSJ. cbn [length] in LLY. lia.
      + rewrite DJ, <- LSJ. exact VL2.
      + intros l Hl. apply SL. now right.
      + exact ST1.
      + rewrite DJ. exact E.
      + left. exact C.
      + rewrite DJ in N1, N2. right. rewrite Nat.shiftr_div_pow2 in *. split; [|split; [|exact ST2]].
        * (* the value opened is the value expected *)
          destruct (nth_error (batch (2 ^ a) (index / 2 ^ a) (O j)) (index mod 2 ^ a)) as [y|] eqn:EY; [|discriminate]. injection E3 as ->.
          unfold batch in EY. rewrite nth_error_firstn in EY. pose proof (Nat.mod_upper_bound index (2 ^ a) ltac:(pose proof (pow2_pos a); lia)) as MB.
          rewrite (proj2 (Nat.ltb_lt _ _)) in EY by exact MB. rewrite nth_error_skipn in EY.
          rewrite (Nat.mul_comm _ (2 ^ a)), <- Nat.div_mod in EY by (pose proof (pow2_pos a); lia). exact EY.
        * intros i Hi. destruct (Nat.eq_dec i j) as [->|NE].
          -- exists nx. replace (sums (S j) - sums j)%nat with a by lia. auto.
          -- destruct (N2 i ltac:(lia)) as (y & Y1 & Y2). exists y. rewrite div_div in Y1, Y2.
             pose proof (sums_le (S j) (S i) ltac:(lia)).
             replace (a + (sums (S i) - sums (S j)))%nat with (sums (S i) - sums j)%nat in Y1, Y2 by lia. auto.
  Qed.

  (** What a query establishes *)
  Definition consistent_at (index : nat) : Prop :=
    forall j, (j < k)%nat -> let y := (index / 2 ^ (sums (S j) - sums 1))%nat in
      exists x, folds_to (oracle_len j) (oracle_batch j) (O j) (slice j) y x /\ nth_error (O (S j)) y = Some x.

  Lemma query_sound layers scratch index tape rest :
    length layers = length (layer_depths p) -> verify_layers compress (root :: roots) (layer_depths p) layers = Ok tt ->
    (forall l, In l layers -> exists pre post, T = pre ++ concat l ++ post) -> (exists pre, T = pre ++ tape) ->
    length scratch = scratch_len F p ->
    verify_query F enc dec hash osz bsz compress utf8 v vts (O k) layers scratch index tape = Ok rest ->
    coll \/ (consistent_at index /\ exists pre, T = pre ++ rest).
  Proof.
    intros LLY VL SL ST LSC E. unfold verify_query in E. cbn [v_params fp_arities] in E.
    destruct arities as [|a ars] eqn:EA.
    { injection E as <-. right. split; [|exact ST]. intros j Hj. rewrite EA in Hj. cbn [length] in Hj. lia. }
    rewrite <- EA in *. assert (K1 : (1 <= k)%nat) by (rewrite EA; cbn [length]; lia).
    assert (C0 : cosets 0 = a) by (unfold cosets; rewrite EA; reflexivity).
    assert (S0 : sums 0 = 0%nat) by reflexivity.
    assert (S1 : sums 1 = a) by (rewrite sums_S by lia; lia).
    pose proof (sums_1 K1) as LB. rewrite S1 in LB. pose proof (sums_coset 0 ltac:(lia)) as SC. rewrite C0, S0 in SC.
    assert (LDP : layer_depths p = optimal_verify_layer q (LL - a) :: scan_depths q (LL - a) ars).
    { unfold layer_depths, fp_log_len. cbn [fp_arities fp_code fp_log_batch fp_queries]. unfold rs_log_len. cbn [rs_log_dim rs_log_inv_rate]. rewrite EA. reflexivity. }
    assert (IB : index_bits p = (LL - a)%nat).
    { unfold index_bits, fp_log_len. cbn [fp_arities fp_code fp_log_batch fp_queries]. unfold rs_log_len. cbn [rs_log_dim rs_log_inv_rate]. rewrite EA. reflexivity. }
    rewrite LDP in *. set (dp := optimal_verify_layer q (LL - a)) in *.
    destruct layers as [|lay layers]; [cbn in LLY; lia|]. cbn [verify_layers] in VL. apply rbind_ok in VL as ([] & VL1 & VL2).
    apply rbind_ok in E as (lcs & E1 & E). unfold sub_or_panic in E1. cbn [fp_log_batch] in E1. destruct (Nat.ltb_spec a lbs); [discriminate|]. injection E1 as <-.
    rewrite IB in E. apply rbind_ok in E as ((vs & t1) & E2 & E).
    pose proof (COM 0 ltac:(lia)) as CM0. rewrite C0, S0, Nat.sub_0_r in CM0. cbn [nth] in CM0.
    destruct (opening_bound T _ _ a (O 0%nat) dp lay index tape vs t1 CM0 VL1 ST (SL lay (or_introl eq_refl)) E2) as [C|(-> & HI & ST1)].
    { left. exists 0%nat. rewrite C0, S0, Nat.sub_0_r. split; [lia|exact C]. }
    apply rbind_ok in E as (chs & E5 & E). unfold slice_of in E5. cbn [v_challenges] in E5. rewrite skipn_length, LCH in E5.
    destruct (_ <? _)%nat; [discriminate|]. injection E5 as <-. cbn [skipn] in E.
    apply rbind_ok in E as (nx & E6 & E). destruct (fold_interleaved_chunk _ _ _ _ _ _ _ _ _) as [nx'|] eqn:EF; [|discriminate]. injection E6 as ->.
    assert (ESL : slice 0 = firstn a ch) by (unfold slice; rewrite C0, S0; reflexivity).
    assert (LSL : length (slice 0) = a) by (rewrite slice_length by lia; exact C0).
    assert (SKP : firstn (a - lbs) (skipn lbs ch) = skipn lbs (slice 0)).
    { rewrite ESL, skipn_firstn_comm. reflexivity. }
    cbn [fp_code] in EF. unfold rs_log_len in EF. cbn [rs_log_dim rs_log_inv_rate fp_log_batch v_tensor v_challenges] in EF.
    change (skipn 0 (skipn lbs ch)) with (skipn lbs ch) in EF. rewrite SKP in EF.
    assert (FT : folds_to (ld + lr) lbs (O 0%nat) (slice 0) index nx).
    { apply (interleaved_folds (ld + lr) lbs (O 0%nat) (slice 0) tensor scratch); rewrite ?LSL; auto; try lia.
      - destruct (COM 0 ltac:(lia)) as [L0 _]. rewrite L0, C0, S0, Nat.sub_0_r, <- Nat.pow_add_r. f_equal. lia.
      - intros x Hx. rewrite HTn by auto. rewrite ESL, firstn_firstn. rewrite Nat.min_l by lia. reflexivity.
      - rewrite LSC. unfold scratch_len. cbn [fp_arities]. assert (2 ^ (a - lbs) <= 2 ^ list_max arities)%nat; [|lia].
        apply pow2_le. pose proof (list_max_in a arities). assert (a <= list_max arities)%nat; [|lia]. apply H0. rewrite EA. now left. }
    assert (E8 : query_loop F enc dec hash osz bsz compress utf8 v vts ars layers (scan_depths q (LL - sums 1) ars) index (LL - sums 1) (sums 1 - lbs) nx (O k) t1 = Ok rest)
      by (rewrite S1; exact E).
    destruct (loop_sound ars [a] layers index nx t1 rest) as [C|(N1 & N2 & ST2)]; auto.
    - cbn [length]. rewrite S1. cbn [length] in LLY. lia.
    - cbn [length skipn]. rewrite S1. exact VL2.
    - intros l Hl. apply SL. now right.
    - right. split; [|exact ST2]. cbn [length] in N1, N2. intros j Hj. destruct j as [|j].
      + cbv zeta. rewrite Nat.sub_diag, Nat.pow_0_r, Nat.div_1_r. exists nx. auto.
      + cbv zeta. apply N2. lia.
  Qed.

  Lemma queries_sound layers stale (indices : list nat) : 
    length layers = length (layer_depths p) -> verify_layers compress (root :: roots) (layer_depths p) layers = Ok tt ->
    (forall l, In l layers -> exists pre post, T = pre ++ concat l ++ post) ->
    (forall i, length (stale i) = scratch_len F p) -> forall n tape rest, (exists pre, T = pre ++ tape) ->
    verify_queries F enc dec hash osz bsz compress utf8 v vts (O k) layers stale n indices tape = Ok rest ->
    coll \/ Forall consistent_at indices.
  Proof.
    intros LLY VL SL LSC. induction indices as [|i is IH]; intros n tape rest ST E; [right; constructor|].
    cbn [verify_queries] in E. apply rbind_ok in E as (t1 & E1 & E).
    destruct (query_sound layers (stale n) i tape t1 LLY VL SL ST (LSC n) E1) as [C|[C ST1]]; [now left|].
    destruct (IH (S n) t1 rest ST1 E) as [C'|C']; [now left|]. right. now constructor.
  Qed.

  Lemma read_layers_inv depths : forall tape layers rest, read_layers osz utf8 depths tape = Ok (layers, rest) ->
    length layers = length depths /\ tape = concat (map (@concat byte) layers) ++ rest.
  Proof.
    induction depths as [|d depths IH]; intros tape layers rest E; cbn [read_layers] in E.
    - injection E as <- <-. auto.
    - apply rbind_ok in E as ((l & t1) & E1 & E). apply rbind_ok in E as ((ls & t2) & E2 & E). injection E as <- <-.
      apply read_digests_split in E1 as [-> _]. apply IH in E2 as [L ->]. cbn [length map concat]. rewrite <- app_assoc. auto.
  Qed.

  Lemma map_res_inv {A B} (f : A -> res B) l out : map_res f l = Ok out -> length out = length l /\
    forall i a, nth_error l i = Some a -> exists b, nth_error out i = Some b /\ f a = Ok b.
  Proof.
    revert out. induction l as [|x l IH]; intros out E; cbn [map_res] in E.
    - injection E as <-. split; [reflexivity|]. intros [|i] a; discriminate.
    - apply rbind_ok in E as (y & E1 & E). apply rbind_ok in E as (ys & E2 & E). injection E as <-. destruct (IH ys E2) as [L H].
      split; [cbn; now rewrite L|]. intros [|i] a Ha; cbn [nth_error] in *; [|now apply H]. injection Ha as <-. eauto.
  Qed.

  Lemma last_sound terminate value : verify_last_oracle F enc hash bsz compress v vts terminate = Ok value ->
    length terminate = (2 ^ (ld + lbs - list_sum arities + lr))%nat ->
    (terminate = O k /\ forall y, (y < 2 ^ lr)%nat -> folds_to (oracle_len k) (oracle_batch k) (O k) (slice k) y value) \/
    (exists i, (i < 2 ^ lr)%nat /\ leaf_collision hash (concat (map enc (batch (2 ^ cosets k) i terminate))) (concat (map enc (batch (2 ^ cosets k) i (O k))))) \/
       node_collision compress (tree_pairs compress lr (map (fun vs => hash (concat (map enc vs))) (Chunks.chunks (2 ^ cosets k) terminate)))
         (tree_pairs compress lr (map (fun vs => hash (concat (map enc vs))) (Chunks.chunks (2 ^ cosets k) (O k)))).
  Proof.
    intros E LTM. unfold verify_last_oracle in E. cbv zeta in E. cbn [v_params v_rounds v_commitment v_challenges v_tensor] in E.
    assert (NF : n_final_challenges p = (ld + lbs - list_sum arities)%nat) by reflexivity. rewrite NF in E.
    assert (CK : cosets k = (ld + lbs - list_sum arities)%nat) by (unfold cosets; now rewrite nth_overflow by lia).
    set (nf := (ld + lbs - list_sum arities)%nat) in *. pose proof (COM k (Nat.le_refl _)) as CM. rewrite CK, sums_k in CM.
    replace (LL - list_sum arities - nf)%nat with lr in CM by (unfold nf; lia).
    assert (LAST : last roots root = nth k (root :: roots) []).
    { rewrite <- LR. apply last_nth. }
    rewrite LAST in E. apply rbind_ok in E as ([] & E1 & E).
    destruct (commits_commit _ _ _ _ CM) as (_ & _ & VV & _). destruct CM as [LO _].
    assert (LTM' : length terminate = (2 ^ lr * 2 ^ nf)%nat) by (rewrite LTM, <- Nat.pow_add_r; f_equal; lia).
    rewrite CK.
    destruct (merkle_vector_binding F enc hash osz bsz compress osz_pos bsz_pos w _ (2 ^ nf) lr terminate (O k) enc_fixed (pow2_pos nf) LTM' LO E1 VV)
      as [->|C]; [|right; exact C]. left. split; [reflexivity|].
    apply rbind_ok in E as (rep & E2 & E).
    assert (REP : forall y x, nth_error rep y = Some x -> x = value).
    { destruct rep as [|x0 rest]; [discriminate|]. destruct (forallb _ rest) eqn:FB; [|discriminate]. injection E as <-.
      rewrite forallb_forall in FB. intros [|y] x Hx; cbn [nth_error] in Hx; [congruence|]. apply nth_error_In in Hx. specialize (FB x Hx).
      destruct (feqb_spec F x x0); [auto|discriminate]. }
    intros y Hy. change (n_oracles p) with k in E2. cbn [fp_arities fp_code fp_log_batch rs_log_dim] in E2. unfold rs_log_len in E2. cbn [rs_log_dim rs_log_inv_rate] in E2.
    destruct (Nat.eqb_spec k 0) as [K0|K0]; cbn [negb] in E2.
    - assert (AN : arities = []) by (apply length_zero_iff_nil; exact K0).
      assert (NFE : nf = (ld + lbs)%nat) by (unfold nf; rewrite AN; unfold list_sum; cbn [fold_right]; lia).
      rewrite (combine_chunks (2 ^ (ld + lbs)) (2 ^ lr)) in E2 by (rewrite ?pow2_pos, <- ?NFE; auto using pow2_pos).
      apply map_res_inv in E2 as [_ E2]. destruct (E2 y (y, batch (2 ^ (ld + lbs)) y (O k))) as (x & X1 & X2).
      { rewrite nth_error_map, nth_error_seq, (proj2 (Nat.ltb_lt _ _)) by exact Hy. reflexivity. }
      apply REP in X1. subst x. destruct (fold_interleaved_chunk _ _ _ _ _ _ _ _ _) as [x|] eqn:EF; [|discriminate]. injection X2 as ->.
      rewrite K0 in CK, LO, EF |- *. cbn [oracle_len oracle_batch].
      assert (C0 : cosets 0 = (ld + lbs)%nat) by congruence.
      assert (LSL : length (slice 0) = (ld + lbs)%nat) by (rewrite slice_length by lia; exact C0).
      assert (ESL : slice 0 = ch) by (unfold slice; rewrite C0; change (sums 0) with 0%nat; cbn [skipn]; apply firstn_all2; lia).
      apply (interleaved_folds (ld + lr) lbs (O 0%nat) (slice 0) tensor (repeat 0 (2 ^ ld))); rewrite ?LSL; auto; try lia.
      + rewrite LO, NFE, <- Nat.pow_add_r. f_equal. lia.
      + replace (ld + lr + lbs - (ld + lbs))%nat with lr by lia. exact Hy.
      + intros z Hz. rewrite HTn by auto. now rewrite ESL.
      + rewrite repeat_length. replace (ld + lbs - lbs)%nat with ld by lia. lia.
      + rewrite ESL at 1. exact EF.
    - apply rbind_ok in E2 as (np & E3 & E2). unfold sub_or_panic in E3. rewrite skipn_length, LCH in E3.
      destruct (_ <? nf)%nat eqn:LNF; [discriminate|]. apply Nat.ltb_ge in LNF. injection E3 as <-.
      rewrite (combine_chunks (2 ^ nf) (2 ^ lr)) in E2 by (auto using pow2_pos).
      apply map_res_inv in E2 as [_ E2]. destruct (E2 y (y, batch (2 ^ nf) y (O k))) as (x & X1 & X2).
      { rewrite nth_error_map, nth_error_seq, (proj2 (Nat.ltb_lt _ _)) by exact Hy. reflexivity. }
      apply REP in X1. subst x. destruct (negb _); [discriminate|]. destruct (fold_chunk _ _ _ _ _) as [x|] eqn:EF; [|discriminate]. injection X2 as ->.
      rewrite Lists.skipn_add in EF. replace (lbs + (ld + lbs - lbs - nf))%nat with (list_sum arities) in EF by (unfold nf in *; lia).
      assert (ESL : slice k = skipn (list_sum arities) ch).
      { unfold slice. rewrite CK, sums_k. apply firstn_all2. rewrite skipn_length, LCH. unfold nf. lia. }
      assert (LSL : length (slice k) = nf) by (rewrite slice_length by lia; exact CK).
      assert (OL : oracle_len k = (nf + lr)%nat /\ oracle_batch k = 0%nat).
      { pose proof sums_k as SK. unfold nf. destruct (length arities) as [|k'] eqn:EK; [lia|]. cbn [oracle_len oracle_batch]. rewrite SK. split; [lia|reflexivity]. }
      destruct OL as [-> ->]. rewrite <- ESL in EF.
      apply chunk_folds; rewrite ?LSL; auto; try lia.
      replace (nf + lr - nf)%nat with lr by lia. exact Hy.
  Qed.
End Sound.

(** C63.  [O 0], [O 1], ... are the vectors behind the commitments: the interleaved codeword sent first, and
    one vector per committed fold.  If the verifier accepts, then the last of them folds with the remaining
    challenges to the returned value everywhere, and for every queried index the vectors are
    consistent: the fold of each, at the queried position, is the value of the next one there.  Otherwise the
    proof contains a collision with one of the committed vectors.  Nothing is assumed about the vectors
    except their lengths. *)
Theorem fri_soundness (F : field) (H2 : char2 F) (basis : list F) (BI : lin_indep basis) (B1 : nth 0 basis f0 = f1)
    ts (HT : tables F basis ts) (enc : F -> list byte) dec w
    (enc_fixed : fixed_encoding enc w) (dec_inv : forall t x rest, dec t = Ok (x, rest) -> t = enc x ++ rest)
    hash osz bsz compress utf8 (hash_len : forall x, length (hash x) = osz) (compress_len : forall x y, length (compress x y) = osz)
    (osz_pos : 0 < osz) (bsz_pos : 0 < bsz)
    ld lr lbs arities q code p challenges root roots v (O : nat -> list F) stale indices tape value rest :
  1 <= ld + lr -> with_ntt_subspace ts ld lr = Ok code -> new_params code lbs arities q = Ok p ->
  (forall a r, arities = a :: r -> lbs <= a) ->
  verifier_new F p root roots challenges = Ok v ->
  let k := length arities in
  let n j := fp_log_len p - sums arities j - cosets ld lbs arities j in
  let b j := 2 ^ cosets ld lbs arities j in
  (forall j, j <= k -> commits F enc hash compress (nth j (root :: roots) []) (n j) (b j) (O j)) ->
  (forall i, length (stale i) = scratch_len F p) ->
  verify F enc dec hash osz bsz compress utf8 v stale indices tape = Ok (value, rest) ->
  (exists j, j <= k /\ opening_collision F enc hash osz bsz compress utf8 (nth j (root :: roots) []) (n j) (b j) (O j) tape) \/
  terminal_collision F enc hash compress (n k) (b k) (O k) tape \/
  ((forall y, y < 2 ^ lr -> folds_to F basis (oracle_len ld lr lbs arities k) (oracle_batch lbs k) (O k) (slice F ld lbs challenges arities k) y value) /\
   Forall (consistent_at F basis ld lr lbs challenges arities O) indices).
Proof.
  intros LD1 EC EP FST EV k n b COM STALE E.
  rewrite (rs_new_correct F H2 basis BI B1 ts HT ld lr LD1) in EC. destruct (Nat.ltb_spec (length basis) (ld + lr)) as [|LD2]; [discriminate|].
  injection EC as <-. destruct (new_params_ok _ _ _ _ _ _ EP) as [-> SUM]. cbn [rs_log_dim] in SUM. set (D := domain_basis basis (ld + lr)) in *.
  unfold fp_log_len in *. cbn [fp_code fp_log_batch] in *. unfold rs_log_len in *. cbn [rs_log_dim rs_log_inv_rate] in *.
  assert (LD : 1 <= ld + lr <= length basis) by lia.
  set (p := mkParams (mkRs D ld lr) lbs arities q) in *.
  unfold verifier_new in EV. destruct (Nat.eqb_spec (length roots) (n_oracles p)) as [LR|]; [|discriminate]. cbn [negb] in EV.
  destruct (Nat.eqb_spec (length challenges) (n_fold_rounds p)) as [LCH|]; [|discriminate]. cbn [negb] in EV.
  change (n_oracles p) with k in LR. change (n_fold_rounds p) with (ld + lbs) in LCH. change (fp_log_batch p) with lbs in EV.
  assert (FL : length (firstn lbs challenges) = lbs) by (rewrite firstn_length; lia).
  destruct (query_expand_correct F 0 (firstn lbs challenges)) as (qq & EQ & QH). rewrite EQ in EV. cbn [rbind] in EV.
  destruct (expansion_correct F 0 _ qq (firstn lbs challenges) QH) as (tensor & ET & LT & HTn). rewrite ET in EV. cbn [of_opt rbind] in EV.
  rewrite FL in LT, HTn. rewrite Nat.sub_0_r, Nat.pow_0_r, Nat.mul_1_r in LT. injection EV as <-.
  destruct (subdomain_tables F H2 basis BI (ld + lr) LD) as (vts & EG & VT). fold D in EG, VT.
  assert (DI : lin_indep D) by (apply domain_indep; auto; lia).
  assert (D1 : nth 0 D f0 = f1) by (apply domain_first; auto).
  unfold verify in E. cbn [v_params v_commitment v_rounds] in E. change (rs_subspace (fp_code p)) with D in E. rewrite EG in E. cbn [rbind] in E.
  apply rbind_ok in E as ((terminate & t1) & E1 & E). apply rbind_ok in E as (val & E2 & E).
  apply rbind_ok in E as ((layers & t2) & E3 & E). apply rbind_ok in E as ([] & E4 & E). apply rbind_ok in E as (t3 & E5 & E). injection E as <- <-.
  apply (read_scalars_inv F enc dec dec_inv) in E1 as [LTM TT].
  change (n_final_challenges p + rs_log_inv_rate (fp_code p)) with (ld + lbs - list_sum arities + lr) in LTM.
  assert (NK : n k = lr).
  { unfold n, k. rewrite (sums_k arities). unfold cosets. rewrite nth_overflow by lia. lia. }
  destruct (last_sound F H2 basis BI B1 ts HT enc w enc_fixed hash osz bsz compress utf8 hash_len compress_len osz_pos bsz_pos (ld + lr) LD2 vts VT DI D1 ld lr lbs eq_refl
     challenges LCH arities q SUM root roots tensor LT HTn O LR COM terminate val E2 LTM) as [[-> LS]|C].
  2:{ right. left. rewrite NK. exists terminate, t1. split; [exact TT|]. split; [|exact C].
      destruct (COM k (Nat.le_refl _)) as [LO _]. rewrite LO, LTM, NK. unfold b. rewrite <- Nat.pow_add_r. f_equal.
      unfold cosets. rewrite nth_overflow by (unfold k; lia). lia. }
  apply (read_layers_inv osz utf8) in E3 as [LLY TT1].
  destruct (queries_sound F H2 basis BI B1 ts HT enc dec w enc_fixed dec_inv hash osz bsz compress utf8 hash_len compress_len osz_pos bsz_pos (ld + lr) LD2 vts VT DI D1 ld lr lbs eq_refl
     challenges LCH arities q SUM FST root roots tensor LT HTn O LR COM tape layers stale indices LLY E4) with (n := 0) (tape := t2) (rest := t3) as [C|C]; auto.
  - intros l Hl. apply in_split in Hl as (l1 & l2 & ->). rewrite TT, TT1, map_app, concat_app. cbn [map concat].
    exists (concat (map enc (O k)) ++ concat (map (@concat byte) l1)), (concat (map (@concat byte) l2) ++ t2). now rewrite <- !app_assoc.
  - exists (concat (map enc (O k)) ++ concat (map (@concat byte) layers)). rewrite TT, TT1. now rewrite <- app_assoc.
Qed.

(** The fold of a vector is determined by the vector. *)
Theorem folds_to_unique (F : field) (H2 : char2 F) (basis : list F) (BI : lin_indep basis) n lbs (oracle chs : list F) y x x' :
  n <= length basis -> lbs <= length chs <= n + lbs ->
  folds_to F basis n lbs oracle chs y x -> folds_to F basis n lbs oracle chs y x' -> x = x'.
Proof.
  intros L Lc (m1 & [L1 V1] & E1) (m2 & [_ V2] & E2).
  assert (EQ : forall p, p < 2 ^ (n + lbs) -> m1 p = m2 p).
  { intros p Hp. rewrite (mix_dm p lbs). set (j := p / 2 ^ lbs). set (z := p mod 2 ^ lbs).
    assert (Hz : z < 2 ^ lbs) by apply mod_lt. assert (Hj : j < 2 ^ n) by (apply div_lt; now rewrite Nat.add_comm).
    apply (novel_poly_unique F H2 (domain_basis basis n) n (fun j => m1 (j * 2 ^ lbs + z)) (fun j => m2 (j * 2 ^ lbs + z)) (seq 0 (2 ^ n))); auto.
    - apply domain_indep; auto.
    - now rewrite db_length.
    - apply seq_NoDup.
    - intros i Hi. apply in_seq in Hi. rewrite db_length. lia.
    - rewrite seq_length. lia.
    - intros i Hi. apply in_seq in Hi. rewrite <- V1, <- V2 by (auto; lia). reflexivity. }
  assert (EF : folded_codeword F basis n n lbs m1 chs = folded_codeword F basis n n lbs m2 chs).
  { unfold folded_codeword. cbv zeta. apply map_ext_in. intros i Hi. apply novel_poly_ext. intros j Hj. apply mle_ext. intros z Hz. apply EQ.
    replace (n - (n - (length chs - lbs))) with (length chs - lbs) in * by lia.
    assert (PW : 2 ^ (n + lbs) = 2 ^ (n - (length chs - lbs)) * 2 ^ length chs) by (rewrite <- Nat.pow_add_r; f_equal; lia).
    rewrite PW. nia. }
  rewrite EF in E1. congruence.
Qed.

(** The hypotheses hold for the run of [fri_completeness_ex]: its roots commit to the encoded message and to
    the vectors of its fold rounds, and the verifier accepts. *)
Fact fri_soundness_ex :
  match otf_generate (els [1; 2; 4]%N) with
  | Ok ts =>
    match with_ntt_subspace ts 2 1 with
    | Ok code =>
      match new_params code 1 [1; 1] 2 with
      | Ok p =>
        let message := [els [1; 2]; els [3; 4]; els [5; 6]; els [7; 8]]%N in
        let challenges := els [9; 5; 11]%N in
        let leaves b l := map (fun vs => ex_hash (concat (map ex_enc vs))) (Chunks.chunks b l) in
        match commit_interleaved X16 ex_enc ex_hash 2 ex_compress 1 ts p (ex_sched 3) message with
        | Ok (root, t, encoded) =>
          match folder_new X16 p (concat encoded) t with
          | Ok fo =>
            match fold_all X16 ex_enc ex_hash 2 ex_compress (cpu_fri_fold ts) (fun i => ex_sched (2 - i)) fo challenges with
            | Ok (fo', roots) =>
              match finish_proof X16 ex_enc fo' [5; 2], verifier_new X16 p root roots challenges with
              | Ok proof, Ok v =>
                match verify X16 ex_enc ex_dec ex_hash 2 2 ex_compress (fun _ => true) v (fun _ => els [0; 0; 0; 0]%N) [5; 2] proof,
                      map fst (fo_rounds X16 fo') with
                | Ok _, [o1; o2] =>
                  root :: roots = [merkle_root ex_compress 3 (leaves 2 (concat encoded)); merkle_root ex_compress 2 (leaves 2 o1);
                                   merkle_root ex_compress 1 (leaves 2 o2)] /\
                  map (@length _) [concat encoded; o1; o2] = [16; 8; 4]
                | _, _ => False end
              | _, _ => False end
            | _ => False end
          | _ => False end
        | _ => False end
      | _ => False end
    | _ => False end
  | _ => False end.
Proof. vm_compute. repeat split; reflexivity. Qed.
