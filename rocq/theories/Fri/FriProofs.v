(** Auxiliary results for C55: the honest FRI prover and the verifier. *)
Require Import Coq.NArith.NArith Coq.setoid_ring.Ring Coq.Arith.Arith Coq.Lists.List Coq.Bool.Bool Lia.
From Verif Require Import Base.Fld Base.Lists Base.Sums Base.Poly Base.NatBits Base.Chunks
  Math.MleSpec Math.UnivariateModel Math.MleModel Math.MleProofs Math.TensorProps
  Ntt.NttSpec Ntt.SubspaceTheory Ntt.TwiddleModel Ntt.NttModel Ntt.NttProofs Ntt.NttCompose Ntt.NttProps
  Code.RsModel Code.RsProps Code.FriFoldModel Code.FriFoldProps
  Transcript.SerModel Merkle.MerkleModel Merkle.MerkleSpec Merkle.MerkleProofs Merkle.MerkleProps
  Fri.FriModel Fri.FriParamsProps Fri.FriFolds.
Import ListNotations.
Local Close Scope N_scope.
Local Open Scope nat_scope.

(** ** Lists of packed elements *)
Lemma concat_skipn {A} w (l : list (list A)) : (forall x, In x l -> length x = w) -> forall i,
  concat (skipn i l) = skipn (i * w) (concat l).
Proof.
  intros W. induction l as [|a l IH]; intros i; [now rewrite !skipn_nil|].
  destruct i as [|i]; [reflexivity|]. cbn [skipn concat]. rewrite IH by (intros; apply W; now right).
  rewrite skipn_app. rewrite (W a) by now left. rewrite (skipn_all2 a) by (rewrite (W a) by (now left); lia). cbn [app].
  f_equal. lia.
Qed.
Lemma concat_firstn {A} w (l : list (list A)) : (forall x, In x l -> length x = w) -> forall i,
  concat (firstn i l) = firstn (i * w) (concat l).
Proof.
  intros W. induction l as [|a l IH]; intros i; [now rewrite !firstn_nil|].
  destruct i as [|i]; [reflexivity|]. cbn [firstn concat]. rewrite IH by (intros; apply W; now right).
  rewrite firstn_app. rewrite (W a) by now left. rewrite (firstn_all2 a) by (rewrite (W a) by (now left); lia).
  f_equal. f_equal. lia.
Qed.
Lemma in_skipn {A} i (l : list A) x : In x (skipn i l) -> In x l.
Proof. intros H. rewrite <- (firstn_skipn i l). apply in_or_app. now right. Qed.

Lemma big_chunks_nth (F : field) lw c n (l : list (list F)) i : well_packed lw l -> lw <= c -> length l * 2 ^ lw = 2 ^ n * 2 ^ c -> i < 2 ^ n ->
  length (big_chunks F lw (2 ^ c) l) = 2 ^ n /\ nth i (big_chunks F lw (2 ^ c) l) [] = batch (2 ^ c) i (concat l).
Proof.
  intros W L LL Hi. unfold big_chunks.
  assert (PC : 2 ^ c = 2 ^ (c - lw) * 2 ^ lw) by (rewrite <- Nat.pow_add_r; f_equal; lia).
  pose proof (pow2_pos lw) as P1. pose proof (pow2_pos (c - lw)) as P2.
  replace (2 ^ c / 2 ^ lw) with (2 ^ (c - lw)) by (rewrite PC, Nat.div_mul by lia; reflexivity).
  assert (LE : length l = 2 ^ n * 2 ^ (c - lw)) by nia.
  rewrite map_length, (Chunks.chunks_length _ (2 ^ n)) by auto. split; [reflexivity|].
  apply nth_error_nth. rewrite nth_error_map, Chunks.chunks_nth_error by auto.
  rewrite (proj2 (Nat.ltb_lt _ _)) by nia. cbn [option_map]. f_equal. unfold batch.
  rewrite (concat_firstn (2 ^ lw)) by (intros x Hx; apply W; now apply in_skipn in Hx).
  rewrite (concat_skipn (2 ^ lw)) by exact W. rewrite <- Nat.mul_assoc, <- PC. reflexivity.
Qed.

Lemma small_chunks_nth (F : field) lw c n (l : list (list F)) i : well_packed lw l -> c <= lw -> length l * 2 ^ lw = 2 ^ n * 2 ^ c -> i < 2 ^ n ->
  length (small_chunks F lw (2 ^ c) l) = 2 ^ n /\ nth i (small_chunks F lw (2 ^ c) l) [] = batch (2 ^ c) i (concat l).
Proof.
  intros W L LL Hi. unfold small_chunks.
  assert (PC : 2 ^ lw = 2 ^ (lw - c) * 2 ^ c) by (rewrite <- Nat.pow_add_r; f_equal; lia).
  pose proof (pow2_pos c) as P1. pose proof (pow2_pos (lw - c)) as P2. pose proof (pow2_pos lw) as P3.
  rewrite LL, Nat.div_mul by lia. rewrite map_length, seq_length. split; [reflexivity|].
  rewrite nth_map_seq by auto. cbv zeta. unfold batch. set (st := i * 2 ^ c).
  assert (ST : st / 2 ^ lw < length l) by (apply Nat.div_lt_upper_bound; [lia|]; unfold st; nia).
  set (e := nth (st / 2 ^ lw) l []). assert (LE : length e = 2 ^ lw) by (apply W, nth_In; exact ST).
  assert (DM := Nat.div_mod st (2 ^ lw) ltac:(lia)). pose proof (Nat.mod_upper_bound st (2 ^ lw) ltac:(lia)) as MB.
  assert (FIT : st mod 2 ^ lw + 2 ^ c <= 2 ^ lw).
  { unfold st in *. rewrite PC in *. rewrite (Nat.mul_comm (2 ^ (lw - c))) in *. rewrite (Nat.mul_comm i) in *.
    rewrite Nat.mul_mod_distr_l by lia. pose proof (Nat.mod_upper_bound i (2 ^ (lw - c)) ltac:(lia)). nia. }
  transitivity (firstn (2 ^ c) (skipn (st mod 2 ^ lw) (concat (skipn (st / 2 ^ lw) l)))).
  - unfold e. clear e LE. destruct (nth_error l (st / 2 ^ lw)) as [e|] eqn:E.
    2:{ apply nth_error_None in E. lia. }
    apply nth_error_split in E as (l1 & l2 & EL & L1). rewrite EL in *. rewrite <- L1.
    assert (SK : skipn (length l1) (l1 ++ e :: l2) = e :: l2) by (rewrite skipn_app, skipn_all, Nat.sub_diag; reflexivity).
    rewrite SK. rewrite app_nth2, Nat.sub_diag by lia. cbn [nth concat].
    assert (LE : length e = 2 ^ lw) by (apply W, in_or_app; right; now left).
    rewrite skipn_app, firstn_app. rewrite skipn_length, LE. replace (2 ^ c - (2 ^ lw - st mod 2 ^ lw)) with 0 by lia.
    rewrite firstn_O, app_nil_r. reflexivity.
  - f_equal. rewrite (concat_skipn (2 ^ lw)) by exact W. rewrite Lists.skipn_add. f_equal. lia.
Qed.

Lemma map_res_ok {A B} (f : A -> res B) (g : A -> B) l : (forall a, In a l -> f a = Ok (g a)) -> map_res f l = Ok (map g l).
Proof.
  induction l as [|a l IH]; intros H; [reflexivity|]. cbn [map_res map]. rewrite H by now left. cbn [rbind].
  rewrite IH by (intros; apply H; now right). reflexivity.
Qed.

(** A fri_fold that folds codewords correctly whenever [good log_batch_size (number of challenges)]. *)
Definition fri_fold_ok (F : field) (basis : list F) (good : nat -> nat -> Prop)
    (fri_fold : nat -> nat -> list F -> list F -> list F -> res (list F)) : Prop :=
  forall n m lbs msg challenges codeword,
    n <= length basis -> lbs <= length challenges -> length challenges - lbs <= m <= n -> good lbs (length challenges) ->
    interleaved_codeword F basis n m lbs msg codeword ->
    fri_fold n lbs challenges codeword (repeat f0 (2 ^ (n - (length challenges - lbs)))) =
    Ok (folded_codeword F basis n m lbs msg challenges).

Lemma is_power_of_two_spec n : is_power_of_two (2 ^ n) = true.
Proof. unfold is_power_of_two. rewrite Nat.log2_pow2 by lia. pose proof (pow2_pos n). rewrite Nat.eqb_refl. destruct (Nat.eqb_spec (2 ^ n) 0); [lia|reflexivity]. Qed.

Section Proofs.
  Variable F : field.
  Hypothesis H2 : char2 F.
  Local Open Scope fld_scope.
  Add Ring Fring : (f_ring F).
  Lemma novel_poly_0 (D : list F) (c : nat -> F) x : novel_poly D 0 c x = c 0%nat.
  Proof. unfold novel_poly, novel. change (2 ^ 0)%nat with 1%nat. rewrite sumn_1, prodn_0. ring. Qed.
  Variable basis : list F.
  Hypothesis BI : lin_indep basis.
  Hypothesis B1 : nth 0 basis 0 = 1.
  Variable ts : list (twiddle F).
  Hypothesis HT : tables F basis ts.

  Variable enc : F -> list byte.
  Variable dec : list byte -> res (F * list byte).
  Hypothesis codec : forall x rest, dec (enc x ++ rest) = Ok (x, rest).
  Variable hash : list byte -> list byte.
  Variable osz bsz : nat.
  Variable compress : list byte -> list byte -> list byte.
  Variable utf8 : list byte -> bool.
  Hypothesis hash_len : forall x, length (hash x) = osz.
  Hypothesis compress_len : forall x y, length (compress x y) = osz.
  Hypothesis osz_pos : (0 < osz)%nat.
  Hypothesis bsz_pos : (0 < bsz)%nat.

  Notation vco := (verify_coset_opening F enc dec hash osz bsz compress utf8).
  Notation pco := (prove_coset_opening F enc).
  Notation qloop := (query_loop F enc dec hash osz bsz compress utf8).
  Notation pqloop := (prove_query_loop F enc).
  Notation vvec := (verify_vector F enc hash bsz compress).

  Lemma read_scalars_ok (l : list F) rest : read_scalars F dec (length l) (concat (map enc l) ++ rest) = Ok (l, rest).
  Proof.
    unfold read_scalars. induction l as [|a l IH]; [reflexivity|]. cbn [length de_items map concat].
    rewrite <- app_assoc, codec. cbn [rbind]. rewrite IH. reflexivity.
  Qed.

  (** An oracle with [2^n] cosets of size [2^a] whose layers and openings verify against [root]. *)
  Definition oracle_ok (codeword : list F) (t : tree) (root : list byte) (a n : nat) : Prop :=
    length codeword = (2 ^ n * 2 ^ a)%nat /\ vvec root codeword (2 ^ a) = Ok tt /\
    forall dp, (dp <= n)%nat -> exists ld, layer t dp = Ok ld /\ length ld = (2 ^ dp)%nat /\
      Forall (fun x => length x = osz) ld /\ verify_layer compress root dp ld = Ok tt /\
      forall index, (index < 2 ^ n)%nat -> exists bytes, pco codeword t index a dp = Ok bytes /\
        forall extra, vco index a dp n ld (bytes ++ extra) = Ok (batch (2 ^ a) index codeword, extra).

  Lemma batch_length {A} b i n (l : list A) : length l = (n * b)%nat -> (i < n)%nat -> length (batch b i l) = b.
  Proof. intros L Hi. unfold batch. rewrite firstn_length, skipn_length. nia. Qed.

  Lemma open_from_proof codeword t a dp n ld :
    length codeword = (2 ^ n * 2 ^ a)%nat ->
    (forall index, (index < 2 ^ n)%nat -> exists proof, prove_opening t dp index = Ok proof /\ length proof = ((n - dp) * osz)%nat /\
       forall extra, verify_opening F enc hash osz bsz compress utf8 index (batch (2 ^ a) index codeword) dp n ld (proof ++ extra) = Ok extra) ->
    forall index, (index < 2 ^ n)%nat -> exists bytes, pco codeword t index a dp = Ok bytes /\
        forall extra, vco index a dp n ld (bytes ++ extra) = Ok (batch (2 ^ a) index codeword, extra).
  Proof.
    intros L H index Hi. destruct (H index Hi) as (proof & EP & _ & EV).
    unfold prove_coset_opening. rewrite EP. cbn [rbind]. eexists. split; [reflexivity|]. intros extra.
    rewrite shl_mul. fold (batch (2 ^ a) index codeword). unfold verify_coset_opening. rewrite <- app_assoc.
    rewrite <- (batch_length (2 ^ a) index (2 ^ n) codeword L Hi) at 1. rewrite read_scalars_ok. cbn [rbind].
    rewrite EV. reflexivity.
  Qed.

  Lemma layer_length root dp ld : verify_layer compress root dp ld = Ok tt -> length ld = (2 ^ dp)%nat.
  Proof. unfold verify_layer. destruct (Nat.eqb_spec (2 ^ dp) (length ld)); [auto|discriminate]. Qed.

  Lemma commit_oracle sched codeword a n : schedule n sched -> length codeword = (2 ^ n * 2 ^ a)%nat ->
    exists root t, commit F enc hash bsz compress sched codeword (2 ^ a) = Ok (root, n, t) /\ oracle_ok codeword t root a n.
  Proof.
    intros HS L. destruct (merkle_completeness F enc hash osz bsz compress utf8 hash_len compress_len osz_pos bsz_pos sched codeword (2 ^ a) n HS (pow2_pos a) L)
      as (root & t & EC & _ & EV & EL).
    exists root, t. split; [exact EC|]. split; [exact L|]. split; [exact EV|]. intros dp Hd.
    destruct (EL dp Hd) as (ld & E1 & E2 & E3 & E4). exists ld. split; [exact E1|]. split; [now apply layer_length in E3|].
    split; [exact E2|]. split; [exact E3|]. now apply open_from_proof.
  Qed.

  Lemma commit_iterated_oracle sched codeword a n chs : schedule n sched -> length codeword = (2 ^ n * 2 ^ a)%nat ->
    length chs = (2 ^ n)%nat -> (forall i, (i < 2 ^ n)%nat -> nth i chs [] = batch (2 ^ a) i codeword) ->
    exists root t, commit_iterated F enc hash bsz compress sched chs n = Ok (root, n, t) /\ oracle_ok codeword t root a n.
  Proof.
    intros HS L LC HC.
    assert (CE : chs = Chunks.chunks (2 ^ a) codeword).
    { apply (list_eq_nth _ _ []).
      - rewrite LC. symmetry. apply Chunks.chunks_length; auto. apply pow2_pos.
      - intros i Hi. rewrite LC in Hi. rewrite HC by auto. symmetry. apply nth_error_nth.
        rewrite Chunks.chunks_nth_error by apply pow2_pos. rewrite (proj2 (Nat.ltb_lt _ _)); [reflexivity|].
        rewrite L. pose proof (pow2_pos a). nia. }
    destruct (merkle_completeness F enc hash osz bsz compress utf8 hash_len compress_len osz_pos bsz_pos sched codeword (2 ^ a) n HS (pow2_pos a) L)
      as (root & t & _ & R & EV & _).
    destruct (merkle_completeness_iterated F enc hash osz bsz compress utf8 hash_len compress_len osz_pos bsz_pos sched chs n HS LC)
      as (root' & t' & EC & R' & EL).
    assert (root' = root) as -> by (rewrite R, R', CE; reflexivity).
    exists root, t'. split; [exact EC|]. split; [exact L|]. split; [exact EV|]. intros dp Hd.
    destruct (EL dp Hd) as (ld & E1 & E2 & E3 & E4). exists ld. split; [exact E1|]. split; [now apply layer_length in E3|].
    split; [exact E2|]. split; [exact E3|]. apply open_from_proof; auto.
    intros index Hi. destruct (E4 index Hi) as (proof & P1 & P2 & P3). exists proof. rewrite HC in P3 by auto. auto.
  Qed.

  (* ---------------------------------------------------------------- *)
  (** ** The codewords of an honest run *)
  Variables ld lr lbs : nat.
  Hypothesis LD : (1 <= ld + lr <= length basis)%nat.
  Variable msg : nat -> F.
  Variable ch : list F.
  Hypothesis LCH : length ch = (ld + lbs)%nat.
  Notation LL := (ld + lr + lbs)%nat.

  (** after [s] challenges *)
  Definition cw (s : nat) : list F := folded_codeword F basis (ld + lr) ld lbs msg (firstn s ch).
  Definition cw_msg (s : nat) (j : nat) : F := mle (fun p => msg (j * 2 ^ s + p)%nat) (firstn s ch).

  Lemma firstn_ch s : (s <= ld + lbs)%nat -> length (firstn s ch) = s.
  Proof. intros. rewrite firstn_length. lia. Qed.

  Lemma cw_length s : (lbs <= s <= ld + lbs)%nat -> length (cw s) = (2 ^ (LL - s))%nat.
  Proof.
    intros L. unfold cw, folded_codeword. cbv zeta. rewrite map_length, seq_length, firstn_ch by lia. f_equal. lia.
  Qed.
  Lemma cw_nth s y : (lbs <= s <= ld + lbs)%nat -> (y < 2 ^ (LL - s))%nat ->
    nth y (cw s) 0 = novel_poly (domain_basis basis (LL - s)) (ld + lbs - s) (cw_msg s) (elem (domain_basis basis (LL - s)) y).
  Proof.
    intros L Hy. unfold cw, folded_codeword. cbv zeta. rewrite firstn_ch by lia.
    replace (ld + lr - (s - lbs))%nat with (LL - s)%nat by lia. rewrite nth_map_seq by auto.
    replace (ld - (s - lbs))%nat with (ld + lbs - s)%nat by lia. reflexivity.
  Qed.
  Lemma cw_codeword s : (lbs <= s <= ld + lbs)%nat -> interleaved_codeword F basis (LL - s) (ld + lbs - s) 0 (cw_msg s) (cw s).
  Proof.
    intros L. split; [rewrite cw_length by auto; f_equal; lia|]. intros y x Hy Hx. rewrite Nat.pow_0_r in *.
    replace x with 0%nat by lia. rewrite Nat.mul_1_r, Nat.add_0_r. rewrite cw_nth by auto. apply novel_poly_ext. intros j Hj. f_equal. lia.
  Qed.

  Lemma firstn_add {A} s a (l : list A) : firstn (s + a) l = firstn s l ++ firstn a (skipn s l).
  Proof. revert l. induction s as [|s IH]; intros [|x l]; cbn [Nat.add firstn skipn app]; rewrite ?firstn_nil; auto. now rewrite IH. Qed.

  Lemma cw_msg_add s a j : (s + a <= ld + lbs)%nat ->
    mle (fun p => cw_msg s (j * 2 ^ a + p)%nat) (firstn a (skipn s ch)) = cw_msg (s + a) j.
  Proof.
    intros L. unfold cw_msg. rewrite (firstn_add s a), mle_app_low, firstn_ch by lia. apply mle_ext. intros p Hp. apply mle_ext. intros x Hx. f_equal.
    rewrite Nat.pow_add_r. lia.
  Qed.

  Lemma slice_ch s a : (s + a <= ld + lbs)%nat -> length (firstn a (skipn s ch)) = a.
  Proof. intros. rewrite firstn_length, skipn_length. lia. Qed.

  Lemma cw_fold s a : (lbs <= s)%nat -> (s + a <= ld + lbs)%nat ->
    folded_codeword F basis (LL - s) (ld + lbs - s) 0 (cw_msg s) (firstn a (skipn s ch)) = cw (s + a).
  Proof.
    intros L1 L2. apply (list_eq_nth _ _ 0).
    - rewrite cw_length by lia. unfold folded_codeword. cbv zeta. rewrite map_length, seq_length, slice_ch by auto. f_equal. lia.
    - unfold folded_codeword at 1. cbv zeta. rewrite map_length, seq_length. rewrite slice_ch by auto.
      replace (LL - s - (a - 0))%nat with (LL - (s + a))%nat by lia. intros y Hy. rewrite cw_nth by (auto; lia).
      unfold folded_codeword. cbv zeta. rewrite slice_ch by auto. replace (LL - s - (a - 0))%nat with (LL - (s + a))%nat by lia.
      rewrite nth_map_seq by auto. replace (ld + lbs - s - (a - 0))%nat with (ld + lbs - (s + a))%nat by lia.
      apply novel_poly_ext. intros j Hj. now apply cw_msg_add.
  Qed.

  (* ---------------------------------------------------------------- *)
  (** ** The verifier's folds *)
  Notation D := (domain_basis basis (ld + lr)).
  Variable vts : list (twiddle F).
  Hypothesis VT : tables F D vts.

  Lemma D_indep : lin_indep D. Proof. apply domain_indep; auto. lia. Qed.
  Lemma D_first : nth 0 D 0 = 1. Proof. now apply domain_first. Qed.
  Lemma D_length : length D = (ld + lr)%nat. Proof. apply db_length. Qed.

  Lemma vfold s a ci : (lbs <= s)%nat -> (s + a <= ld + lbs)%nat -> (ci < 2 ^ (LL - (s + a)))%nat ->
    fold_chunk vts (LL - s) ci (batch (2 ^ a) ci (cw s)) (firstn a (skipn s ch)) =
    Some (novel_poly (domain_basis basis (LL - (s + a))) (ld + lbs - (s + a)) (cw_msg (s + a)) (elem (domain_basis basis (LL - (s + a))) ci)).
  Proof.
    intros L1 L2 Hc. pose proof (cw_length s ltac:(lia)) as LC.
    assert (PW : (2 ^ (LL - s) = 2 ^ (LL - (s + a)) * 2 ^ a)%nat) by (rewrite <- Nat.pow_add_r; f_equal; lia).
    rewrite (fold_chunk_correct F H2 D D_indep D_first vts VT (LL - s) (ld + lbs - s) (cw_msg s) ci); rewrite ?slice_ch by auto.
    - f_equal. rewrite (domain_domain F H2 basis BI) by lia. replace (LL - s - a)%nat with (LL - (s + a))%nat by lia.
      replace (ld + lbs - s - a)%nat with (ld + lbs - (s + a))%nat by lia. apply novel_poly_ext. intros j Hj. now apply cw_msg_add.
    - rewrite D_length. lia.
    - lia.
    - replace (LL - s - a)%nat with (LL - (s + a))%nat by lia. exact Hc.
    - apply (batch_length _ _ (2 ^ (LL - (s + a)))); auto. lia.
    - intros v Hv. rewrite (domain_domain F H2 basis BI) by lia. unfold batch. rewrite nth_firstn_lt by auto. rewrite nth_skipn'.
      rewrite cw_nth by (try lia; rewrite PW; nia). reflexivity.
  Qed.
  Lemma vfold_nth s a ci : (lbs <= s)%nat -> (s + a <= ld + lbs)%nat -> (ci < 2 ^ (LL - (s + a)))%nat ->
    fold_chunk vts (LL - s) ci (batch (2 ^ a) ci (cw s)) (firstn a (skipn s ch)) = Some (nth ci (cw (s + a)) 0).
  Proof. intros. rewrite vfold by auto. now rewrite cw_nth by (auto; lia). Qed.

  Variable code0 : list F.
  Hypothesis HC0 : interleaved_codeword F basis (ld + lr) ld lbs msg code0.
  Variable tensor : list F.
  Hypothesis LT : length tensor = (2 ^ lbs)%nat.
  Hypothesis HTn : forall x, (x < 2 ^ lbs)%nat -> nth x tensor 0 = eqw (firstn lbs ch) x.

  Lemma vfold0 a ci scratch : (lbs <= a <= ld + lbs)%nat -> (ci < 2 ^ (LL - a))%nat -> (2 ^ (a - lbs) <= length scratch)%nat ->
    fold_interleaved_chunk 0 vts (ld + lr) lbs ci (batch (2 ^ a) ci code0) tensor (firstn (a - lbs) (skipn lbs ch)) scratch =
    Some (nth ci (cw a) 0).
  Proof.
    intros La Hc LS. destruct HC0 as [LC HV].
    assert (SL : length (firstn (a - lbs) (skipn lbs ch)) = (a - lbs)%nat) by (apply slice_ch; lia).
    assert (PW : (2 ^ (ld + lr + lbs) = 2 ^ (LL - a) * 2 ^ a)%nat) by (rewrite <- Nat.pow_add_r; f_equal; lia).
    assert (PA : (2 ^ a = 2 ^ (a - lbs) * 2 ^ lbs)%nat) by (rewrite <- Nat.pow_add_r; f_equal; lia).
    assert (DD : (ld + lr - (a - lbs) = LL - a)%nat) by lia.
    rewrite (fold_interleaved_chunk_correct F H2 D D_indep D_first vts VT 0 (ld + lr) ld lbs msg ci _ _ (firstn lbs ch)); rewrite ?SL.
    - rewrite cw_nth by (auto; lia). rewrite !(domain_domain F H2 basis BI) by lia. rewrite DD.
      replace (ld - (a - lbs))%nat with (ld + lbs - a)%nat by lia. f_equal. apply novel_poly_ext. intros j Hj. unfold cw_msg.
      replace (lbs + (a - lbs))%nat with a by lia. rewrite <- firstn_add. replace (lbs + (a - lbs))%nat with a by lia. reflexivity.
    - rewrite D_length. lia.
    - lia.
    - apply firstn_ch. lia.
    - right. lia.
    - rewrite DD. exact Hc.
    - rewrite (batch_length _ _ (2 ^ (LL - a))) by (auto; lia). rewrite Nat.sub_0_r, Nat.pow_0_r, Nat.mul_1_r. f_equal. lia.
    - exact LS.
    - exact HTn.
    - rewrite Nat.sub_0_r, Nat.pow_0_r. lia.
    - intros v x Hv Hx. rewrite (domain_domain F H2 basis BI) by lia. unfold batch.
      assert (VX : (v * 2 ^ lbs + x < 2 ^ a)%nat) by (rewrite PA; nia).
      rewrite nth_firstn_lt by auto. rewrite nth_skipn'.
      replace (ci * 2 ^ a + (v * 2 ^ lbs + x))%nat with ((ci * 2 ^ (a - lbs) + v) * 2 ^ lbs + x)%nat by (rewrite PA; lia).
      apply HV; auto. assert (2 ^ (ld + lr) = 2 ^ (LL - a) * 2 ^ (a - lbs))%nat by (rewrite <- Nat.pow_add_r; f_equal; lia). nia.
  Qed.

  (* ---------------------------------------------------------------- *)
  (** ** The prover's folds *)
  Variable good : nat -> nat -> Prop.
  Variable fri_fold : nat -> nat -> list F -> list F -> list F -> res (list F).
  Hypothesis FFOK : fri_fold_ok F basis good fri_fold.
  Variable arities : list nat.
  Variable q : nat.
  Hypothesis SUM : (list_sum arities < ld + lbs)%nat.
  Hypothesis POS : forall a, In a arities -> (1 <= a)%nat.
  Hypothesis FIRST : forall a r, arities = a :: r -> (lbs <= a)%nat /\ good lbs a.
  Hypothesis LATER : forall a r b, arities = a :: r -> In b r -> good 0 b.
  Notation code := (mkRs D ld lr).
  Notation p := (mkParams code lbs arities q).
  Notation nfin := (ld + lbs - list_sum arities)%nat.
  Definition coset (ars : list nat) : nat := match ars with a :: _ => a | [] => nfin end.
  Variable sched : nat -> nat -> list nat.
  Hypothesis SCHED : forall dn a ars, arities = dn ++ a :: ars ->
    schedule (LL - (list_sum dn + a) - coset ars) (sched (length dn)).
  Notation fall := (fold_all F enc hash bsz compress fri_fold sched).

  Fixpoint rchain (s : nat) (ars : list nat) (R : list (list F * tree)) (roots : list (list byte)) {struct R} : Prop :=
    match R, roots with
    | (c, t) :: R', root :: roots' =>
      c = cw s /\ oracle_ok (cw s) t root (coset ars) (LL - s - coset ars) /\
      match ars with [] => R' = [] /\ roots' = [] | a :: ars' => rchain (s + a) ars' R' roots' end
    | _, _ => False
    end.

  Lemma fold_all_app f a b : fall f (a ++ b) =
    rbind (fall f a) (fun '(f1, o1) => rbind (fall f1 b) (fun '(f2, o2) => Ok (f2, o1 ++ o2))).
  Proof.
    revert f. induction a as [|c a IH]; intros f.
    - cbn [app fold_all rbind]. destruct (fall f b) as [[f2 o2]| |]; reflexivity.
    - cbn [app fold_all]. destruct (execute_fold_round F enc hash bsz compress fri_fold sched f c) as [[f1 out]| |]; [|reflexivity..]. cbn [rbind].
      rewrite IH. destruct (fall f1 a) as [[f2 o2]| |]; [|reflexivity..]. cbn [rbind].
      destruct (fall f2 b) as [[f3 o3]| |]; [|reflexivity..]. cbn [rbind]. destruct out; reflexivity.
  Qed.

  Lemma fold_pending cs : forall cw0 t0 R curr next pend,
    match next with Some r => (curr + length cs < r)%nat | None => True end ->
    fall (mkFolder F p cw0 t0 R curr next pend) cs = Ok (mkFolder F p cw0 t0 R (curr + length cs) next (pend ++ cs), []).
  Proof.
    induction cs as [|c cs IH]; intros cw0 t0 R curr next pend H; [cbn [fold_all length]; now rewrite Nat.add_0_r, app_nil_r|].
    cbn [fold_all]. unfold execute_fold_round. cbn [fo_params fo_codeword fo_committed fo_rounds fo_curr_round fo_next_commit fo_pending length] in *.
    assert (E : match next with Some r => (r =? S curr)%nat | None => false end = false).
    { destruct next; [|reflexivity]. apply Nat.eqb_neq. lia. }
    rewrite E. cbn [negb rbind]. rewrite IH by (destruct next; auto; lia). cbn [rbind]. rewrite <- app_assoc. cbn [app]. do 2 f_equal. f_equal. lia.
  Qed.

  Definition prev_ok (dn : list nat) (R : list (list F * tree)) : Prop :=
    match rev R with (c, _) :: _ => dn <> [] /\ c = cw (list_sum dn) /\ (lbs <= list_sum dn)%nat | [] => dn = [] end.
  Definition next_of (s : nat) (ars : list nat) : option nat := match ars with a :: _ => Some (s + a)%nat | [] => None end.

  Lemma block dn a ars t0 R : arities = dn ++ a :: ars -> length R = length dn -> prev_ok dn R ->
    let s := list_sum dn in
    exists root t, fall (mkFolder F p code0 t0 R s (Some (s + a)%nat) []) (firstn a (skipn s ch)) =
      Ok (mkFolder F p code0 t0 (R ++ [(cw (s + a), t)]) (s + a) (next_of (s + a) ars) [], [root]) /\
      oracle_ok (cw (s + a)) t root (coset ars) (LL - (s + a) - coset ars) /\ (lbs <= s + a)%nat.
  Proof.
    intros EA LR PR s. set (cs := firstn a (skipn s ch)).
    assert (SA : (s + a + list_sum ars = list_sum arities)%nat) by (rewrite EA, list_sum_app; cbn [list_sum fold_right]; unfold s, list_sum; lia).
    assert (A1 : (1 <= a)%nat) by (apply POS; rewrite EA; apply in_or_app; right; now left).
    assert (LS : length cs = a) by (apply slice_ch; lia).
    assert (COS : (coset ars <= ld + lbs - (s + a))%nat).
    { destruct ars as [|b r]; cbn [coset]; [lia|]. cbn [list_sum fold_right] in SA. unfold list_sum in *. lia. }
    assert (LB : (lbs <= s + a)%nat).
    { destruct dn as [|d0 dn']; [destruct (FIRST a ars EA); unfold s; cbn; lia|].
      unfold prev_ok in PR. destruct (rev R) as [|[c t] l]; [discriminate PR|]. unfold s. lia. }
    destruct (exists_last (l := cs)) as (cs' & x & ECS); [intros E; rewrite E in LS; cbn in LS; lia|].
    assert (LS' : (length cs' + 1)%nat = a) by (rewrite <- LS, ECS, app_length; reflexivity).
    assert (PW : (2 ^ (LL - (s + a)) = 2 ^ (LL - (s + a) - coset ars) * 2 ^ coset ars)%nat) by (rewrite <- Nat.pow_add_r; f_equal; lia).
    destruct (commit_oracle (sched (length dn)) (cw (s + a)) (coset ars) (LL - (s + a) - coset ars)) as (root & t & EC & OK).
    { apply SCHED. exact EA. }
    { rewrite cw_length by lia. exact PW. }
    exists root, t. split; [|split; [exact OK|exact LB]].
    rewrite ECS, fold_all_app, fold_pending by lia. cbn [rbind fold_all app].
    unfold execute_fold_round. cbn [fo_params fo_codeword fo_committed fo_rounds fo_curr_round fo_next_commit fo_pending fp_arities fp_code fp_log_batch].
    replace (S (s + length cs')) with (s + a)%nat by lia. rewrite Nat.eqb_refl. cbn [negb].
    rewrite <- ECS.
    match goal with |- context [rbind ?X _] => assert (EF : X = Ok (cw (s + a))) end.
    { unfold prev_ok in PR. destruct (rev R) as [|[prev tp] l] eqn:ER.
      - subst dn. destruct (FIRST a ars EA) as [LA GA]. rewrite LS. unfold sub_or_panic.
        rewrite (proj2 (Nat.ltb_ge a lbs)) by lia. cbn [rbind]. unfold rs_log_len. cbn [rs_log_dim rs_log_inv_rate].
        rewrite (proj2 (Nat.ltb_ge (ld + lr) (a - lbs))) by (unfold s in *; cbn in *; lia). cbn [rbind].
        replace (ld + lr - (a - lbs))%nat with (ld + lr - (length cs - lbs))%nat by lia.
        rewrite (FFOK (ld + lr)%nat ld lbs msg); rewrite ?LS; auto; try (unfold s in *; cbn in *; lia).
      - destruct PR as (DN & EP & LP). fold s in EP, LP.
        assert (PL : length prev = (2 ^ (LL - s))%nat) by (rewrite EP; apply cw_length; lia).
        rewrite PL, is_power_of_two_spec. cbn [negb]. rewrite Nat.log2_pow2 by lia.
        assert (DV : (2 ^ (LL - s) / 2 ^ length cs = 2 ^ (LL - s - (length cs - 0)))%nat).
        { rewrite LS. replace (LL - s)%nat with (LL - s - (a - 0) + a)%nat at 1 by lia. rewrite Nat.pow_add_r. apply Nat.div_mul.
          pose proof (pow2_pos a); lia. }
        rewrite DV, EP. rewrite (FFOK (LL - s)%nat (ld + lbs - s)%nat 0%nat (cw_msg s)); rewrite ?LS; try lia.
        + f_equal. apply cw_fold; lia.
        + destruct dn as [|d0 dn']; [congruence|]. apply (LATER d0 (dn' ++ a :: ars)); [exact EA|]. apply in_or_app. right. now left.
        + apply cw_codeword. lia. }
    rewrite EF. cbn [rbind].
    assert (NE : forall k, nth_error arities (length R + 1 + k) = nth_error ars k).
    { intros k. rewrite EA, LR. rewrite nth_error_app2 by lia. replace (length dn + 1 + k - length dn)%nat with (S k) by lia. reflexivity. }
    pose proof (NE 0%nat) as NE0. rewrite Nat.add_0_r in NE0. rewrite NE0.
    assert (CO : match nth_error ars 0 with Some a0 => (2 ^ a0)%nat | None => (2 ^ n_final_challenges p)%nat end = (2 ^ coset ars)%nat).
    { destruct ars; reflexivity. }
    rewrite CO, LR, EC. cbn [rbind]. rewrite app_length. cbn [length]. rewrite NE0. unfold next_of. destruct ars; reflexivity.
  Qed.

  Lemma prev_ok_snoc dn a R t : (lbs <= list_sum dn + a)%nat -> prev_ok (dn ++ [a]) (R ++ [(cw (list_sum dn + a), t)]).
  Proof.
    intros L. unfold prev_ok. rewrite rev_app_distr. cbn [rev app]. 
    assert (E : list_sum (dn ++ [a]) = (list_sum dn + a)%nat) by (rewrite list_sum_app; unfold list_sum; cbn [fold_right]; lia).
    rewrite E. split; [destruct dn; discriminate|]. auto.
  Qed.

  Lemma blocks ars : forall dn t0 R, arities = dn ++ ars -> length R = length dn -> prev_ok dn R ->
    let s := list_sum dn in
    exists R' outs pend, fall (mkFolder F p code0 t0 R s (next_of s ars) []) (skipn s ch) =
      Ok (mkFolder F p code0 t0 (R ++ R') (ld + lbs) None pend, outs) /\
      match ars with [] => R' = [] /\ outs = [] | a :: ars' => rchain (s + a) ars' R' outs /\ (lbs <= s + a)%nat end.
  Proof.
    induction ars as [|a ars IH]; intros dn t0 R EA LR PR s.
    - exists [], [], (skipn s ch). cbn [next_of]. rewrite fold_pending by exact I. rewrite app_nil_r. split; [|auto].
      do 3 f_equal. rewrite skipn_length, LCH. rewrite app_nil_r in EA. subst dn. fold s in SUM. lia.
    - destruct (block dn a ars t0 R EA LR PR) as (root & t & E1 & OK & LB). fold s in E1, OK, LB.
      destruct (IH (dn ++ [a]) t0 (R ++ [(cw (s + a), t)])) as (R' & outs & pend & E2 & CH).
      { now rewrite <- app_assoc. } { rewrite !app_length. cbn. lia. } { now apply prev_ok_snoc. }
      assert (SS : list_sum (dn ++ [a]) = (s + a)%nat) by (rewrite list_sum_app; unfold s, list_sum; cbn [fold_right]; lia).
      rewrite SS in E2, CH. exists ((cw (s + a), t) :: R'), (root :: outs), pend. split.
      + rewrite <- (firstn_skipn a (skipn s ch)), fold_all_app. cbn [next_of]. rewrite E1. cbn [rbind].
        rewrite Lists.skipn_add, E2. cbn [rbind app]. rewrite <- app_assoc. reflexivity.
      + split; [|exact LB]. cbn [rchain]. split; [reflexivity|]. split; [exact OK|].
        destruct ars as [|b ars]; [exact CH|]. exact (proj1 CH).
  Qed.

  Lemma rchain_last ars : forall s R roots d, rchain s ars R roots ->
    exists l t root, rev R = (cw (s + list_sum ars), t) :: l /\ last roots d = root /\ length roots = S (length ars) /\
      oracle_ok (cw (s + list_sum ars)) t root nfin (LL - (s + list_sum ars) - nfin).
  Proof.
    induction ars as [|a ars IH]; intros s [|[c t] R] [|root roots] d H; cbn [rchain] in H; try easy.
    - destruct H as (-> & OK & -> & ->). cbn [list_sum fold_right rev app last length]. unfold list_sum. cbn [fold_right]. rewrite Nat.add_0_r.
      exists [], t, root. auto.
    - destruct H as (-> & OK & CH). destruct (IH _ _ _ d CH) as (l & t' & root' & E1 & E2 & E3 & E4).
      cbn [rev]. rewrite E1. change (list_sum (a :: ars)) with (a + list_sum ars)%nat. rewrite Nat.add_assoc.
      exists (l ++ [(cw s, t)]), t', root'. cbn [app]. split; [reflexivity|].
      split; [|split; [cbn [length]; now rewrite E3|exact E4]]. destruct roots as [|r2 roots]; [discriminate E3|]. exact E2.
  Qed.

  (* ---------------------------------------------------------------- *)
  (** ** The queries *)
  Notation v root0 roots := (mkVerifier F p root0 roots tensor (skipn lbs ch)).

  Lemma queries_ok root0 roots0 term ars : forall s R roots, rchain s ars R roots -> (lbs <= s)%nat ->
    (s + list_sum ars <= ld + lbs)%nat -> term = cw (s + list_sum ars) ->
    let depths := scan_depths q (LL - s) ars in
    exists layers, optimal_layers (map snd R) depths = Ok layers /\ verify_layers compress roots depths layers = Ok tt /\
      (forall extra, read_layers osz utf8 depths (concat (map (@concat byte) layers) ++ extra) = Ok (layers, extra)) /\
      forall index, (index < 2 ^ (LL - s))%nat -> exists bytes, pqloop R ars depths index = Ok bytes /\
        forall extra, qloop (v root0 roots0) vts ars layers depths index (LL - s) (s - lbs) (nth index (cw s) 0) term (bytes ++ extra) = Ok extra.
  Proof.
    induction ars as [|a ars IH]; intros s [|[c t] R] [|root roots] H LB LS ET; cbn [rchain] in H; try easy.
    - destruct H as (-> & OK & -> & ->). cbn [scan_depths map]. exists []. cbn [optimal_layers verify_layers read_layers map concat app].
      split; [reflexivity|]. split; [reflexivity|]. split; [reflexivity|]. intros index Hi. exists []. split; [reflexivity|].
      intros extra. cbn [query_loop app]. subst term. unfold list_sum. cbn [fold_right]. rewrite Nat.add_0_r.
      rewrite (nth_error_nth' (cw s) 0) by (rewrite cw_length by lia; exact Hi). cbn [of_opt rbind]. now rewrite feqb_refl.
    - destruct H as (-> & OK & CH). change (list_sum (a :: ars)) with (a + list_sum ars)%nat in *.
      destruct (IH (s + a)%nat R roots CH) as (layers & E1 & E2 & E3 & E4); try lia. { now rewrite <- Nat.add_assoc. }
      cbn [coset] in OK. destruct OK as (LC & _ & OPN). cbv zeta. cbn [scan_depths]. replace (LL - s - a)%nat with (LL - (s + a))%nat in * by lia.
      set (dp := optimal_verify_layer q (LL - (s + a))). destruct (OPN dp) as (lay & L1 & L2 & L3 & L4 & L5); [unfold dp, optimal_verify_layer; lia|].
      exists (lay :: layers). cbn [map snd optimal_layers verify_layers read_layers concat]. rewrite L1. cbn [rbind]. rewrite E1. cbn [rbind].
      split; [reflexivity|]. rewrite L4. cbn [rbind]. split; [exact E2|]. split.
      { intros extra. rewrite <- L2, <- app_assoc, read_digests_ok by exact L3. cbn [rbind]. rewrite E3. reflexivity. }
      intros index Hi. pose proof (pow2_pos a) as PA.
      assert (PW : (2 ^ (LL - s) = 2 ^ (LL - (s + a)) * 2 ^ a)%nat) by (rewrite <- Nat.pow_add_r; f_equal; lia).
      assert (CI : (Nat.shiftr index a < 2 ^ (LL - (s + a)))%nat).
      { rewrite Nat.shiftr_div_pow2. apply Nat.div_lt_upper_bound; lia. }
      destruct (L5 _ CI) as (b & B1' & B2). destruct (E4 _ CI) as (bs & C1 & C2).
      exists (b ++ bs). cbn [prove_query_loop]. rewrite B1'. cbn [rbind]. rewrite C1. split; [reflexivity|]. intros extra.
      cbn [query_loop]. unfold sub_or_panic. rewrite (proj2 (Nat.ltb_ge (LL - s) a)) by lia. cbn [rbind].
      replace (LL - s - a)%nat with (LL - (s + a))%nat by lia. rewrite <- app_assoc, B2. cbn [rbind].
      assert (NV : nth_error (batch (2 ^ a) (Nat.shiftr index a) (cw s)) (index mod 2 ^ a) = Some (nth index (cw s) 0)).
      { pose proof (Nat.mod_upper_bound index (2 ^ a) ltac:(lia)) as MB.
        rewrite (nth_error_nth' _ 0) by (rewrite (batch_length _ _ (2 ^ (LL - (s + a)))); auto). f_equal.
        unfold batch. rewrite nth_firstn_lt by auto. rewrite nth_skipn'. f_equal. rewrite Nat.shiftr_div_pow2.
        rewrite (Nat.div_mod index (2 ^ a)) at 3 by lia. lia. }
      rewrite NV. cbn [of_opt rbind]. rewrite feqb_refl. cbn [negb v_params fp_code v_challenges].
      unfold rs_log_len. cbn [rs_log_dim rs_log_inv_rate]. rewrite (proj2 (Nat.ltb_ge (ld + lr) (s - lbs))) by lia. cbn [rbind].
      unfold slice_of. rewrite skipn_length, LCH. rewrite (proj2 (Nat.ltb_ge _ _)) by lia. cbn [rbind].
      rewrite Lists.skipn_add. replace (lbs + (s - lbs))%nat with s by lia. replace (ld + lr - (s - lbs))%nat with (LL - s)%nat by lia.
      rewrite vfold_nth by (auto; lia). cbn [of_opt rbind]. replace (s - lbs + a)%nat with (s + a - lbs)%nat by lia. apply C2.
  Qed.
End Proofs.
