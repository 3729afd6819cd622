(** C55: an honest FRI prover convinces the verifier, which ends with the value of the committed
    multilinear at the folding challenges. *)
Require Import Coq.NArith.NArith Coq.setoid_ring.Ring Coq.Arith.Arith Coq.Lists.List Coq.Bool.Bool Lia.
From Verif Require Import Base.Fld Base.Lists Base.Sums Base.Poly Base.NatBits Base.Chunks Field.Examples
  Math.MleSpec Math.UnivariateModel Math.MleModel Math.MleProofs Math.TensorProps
  Ntt.NttSpec Ntt.SubspaceTheory Ntt.TwiddleModel Ntt.NttModel Ntt.NttProofs Ntt.NttCompose Ntt.NttProps
  Code.RsModel Code.RsProps Code.FriFoldModel Code.FriFoldProps
  Transcript.SerModel Merkle.MerkleModel Merkle.MerkleSpec Merkle.MerkleProofs Merkle.MerkleProps
  Fri.FriModel Fri.FriParamsProps Fri.FriFolds Fri.FriProofs.
Import ListNotations.
Local Close Scope N_scope.
Local Open Scope nat_scope.

Lemma combine_chunks {A} b n (l : list A) : 0 < b -> length l = n * b ->
  combine (seq 0 (length (Chunks.chunks b l))) (Chunks.chunks b l) = map (fun i => (i, batch b i l)) (seq 0 n).
Proof.
  intros Hb L. rewrite (Chunks.chunks_length b n) by auto.
  assert (E : Chunks.chunks b l = map (fun i => batch b i l) (seq 0 n)).
  { apply (list_eq_nth _ _ []).
    - now rewrite map_length, seq_length, (Chunks.chunks_length b n).
    - intros i Hi. rewrite (Chunks.chunks_length b n) in Hi by auto. rewrite nth_map_seq by auto. apply nth_error_nth.
      rewrite Chunks.chunks_nth_error by auto. rewrite (proj2 (Nat.ltb_lt _ _)); [reflexivity|]. nia. }
  rewrite E. generalize (seq 0 n) as s. induction s as [|x s IH]; [reflexivity|]. cbn [map combine]. now rewrite IH.
Qed.

Lemma list_max_in a l : In a l -> a <= list_max l.
Proof. intros H. pose proof (proj1 (list_max_le l (list_max l)) (Nat.le_refl _)) as F. rewrite Forall_forall in F. now apply F. Qed.

Section FriProps.
  Variable F : field.
  Hypothesis H2 : char2 F.
  Local Open Scope fld_scope.
  Add Ring Fring : (f_ring F).
  (** The evaluation domain: a basis of the NTT's subspace, and the NTT's twiddle tables. *)
  Variable basis : list F.
  Hypothesis BI : lin_indep basis.
  Hypothesis B1 : nth 0 basis 0 = 1.
  Variable ts : list (twiddle F).
  Hypothesis HT : tables F basis ts.
  (** Serialization of scalars, hashing and compression. *)
  Variable enc : F -> list byte.
  Variable dec : list byte -> res (F * list byte).
  Hypothesis codec : forall x rest, dec (enc x ++ rest) = Ok (x, rest).
  Variable hash : list byte -> list byte.
  Variable osz bsz : nat.
  Variable compress : list byte -> list byte -> list byte.
  Variable utf8 : list byte -> bool.
  Hypothesis hash_len : forall x, length (hash x) = osz.
  Hypothesis compress_len : forall x y, length (compress x y) = osz.
  Hypothesis osz_pos : (0 < osz)%nat.
  Hypothesis bsz_pos : (0 < bsz)%nat.

  Lemma pow2_divides lw n k : (k * 2 ^ lw = 2 ^ n)%nat -> (lw <= n)%nat.
  Proof.
    intros E. destruct (Nat.le_gt_cases lw n) as [|G]; [auto|]. exfalso.
    assert (2 ^ n < 2 ^ lw)%nat by (apply Nat.pow_lt_mono_r; lia). pose proof (pow2_pos n). destruct k; [lia|]. nia.
  Qed.

  Lemma commit_interleaved_ok lw ld lr lbs arities q sched0 (message : list (list F)) :
    (1 <= ld + lr <= length basis)%nat -> (list_sum arities < ld + lbs)%nat ->
    well_packed lw message -> (length message * 2 ^ lw = 2 ^ (ld + lbs))%nat ->
    let D := domain_basis basis (ld + lr) in
    let p := mkParams (mkRs D ld lr) lbs arities q in
    let c := hd (ld + lbs)%nat arities in
    schedule (ld + lr + lbs - c) sched0 ->
    exists root t encoded, commit_interleaved F enc hash bsz compress lw ts p sched0 message = Ok (root, t, encoded) /\
      interleaved_codeword F basis (ld + lr) ld lbs (scalar_at lw message) (concat encoded) /\
      oracle_ok F enc dec hash osz bsz compress utf8 (concat encoded) t root c (ld + lr + lbs - c).
  Proof.
    intros LD SUM WP LM D p c SC. unfold commit_interleaved. cbn [p fp_code fp_log_batch fp_arities rs_log_dim rs_log_inv_rate]. unfold rs_dim. cbn [rs_log_dim].
    assert (CL : (c <= ld + lbs)%nat) by (unfold c; destruct arities as [|a r]; cbn [hd]; [lia|]; change (list_sum (a :: r)) with (a + list_sum r)%nat in SUM; lia).
    pose proof (pow2_divides _ _ _ LM) as LW. pose proof (pow2_pos lw) as PL.
    rewrite <- Nat.pow_add_r, LM, Nat.eqb_refl. cbn [negb]. rewrite (proj2 (Nat.ltb_ge _ _)) by exact LW.
    assert (LMe : length message = (2 ^ (ld + lbs - lw))%nat).
    { apply (Nat.mul_cancel_r _ _ (2 ^ lw)); [lia|]. rewrite LM, <- Nat.pow_add_r. f_equal. lia. }
    set (buffer := message ++ repeat (repeat 0 (2 ^ lw)) (2 ^ (ld + lbs - lw + lr) - length message)).
    assert (LB : length buffer = (2 ^ (ld + lr + lbs - lw))%nat).
    { unfold buffer. rewrite app_length, repeat_length. assert (2 ^ (ld + lbs - lw) <= 2 ^ (ld + lbs - lw + lr))%nat by (apply pow2_le; lia).
      replace (ld + lr + lbs - lw)%nat with (ld + lbs - lw + lr)%nat by lia. lia. }
    assert (WB : well_packed lw buffer).
    { intros x Hx. apply in_app_or in Hx as [Hx|Hx]; [now apply WP|]. apply repeat_spec in Hx. subst x. apply repeat_length. }
    destruct (rs_encode_correct F H2 basis BI B1 ts HT lw ld lr lbs buffer LD WB LB (or_introl LW)) as (encoded & EE & LE & WE & HV).
    fold D in EE. rewrite EE. cbn [rbind].
    assert (LEC : (length encoded * 2 ^ lw = 2 ^ (ld + lr + lbs - c) * 2 ^ c)%nat).
    { rewrite LE, LB, <- !Nat.pow_add_r. f_equal. lia. }
    assert (IC : interleaved_codeword F basis (ld + lr) ld lbs (scalar_at lw message) (concat encoded)).
    { split.
      - rewrite (concat_length_packed lw) by exact WE. rewrite LEC, <- Nat.pow_add_r. f_equal. lia.
      - intros y x Hy Hx. rewrite (scalar_concat lw) by exact WE. rewrite HV by auto. apply novel_poly_ext. intros j Hj.
        rewrite <- !scalar_concat by auto. unfold buffer. rewrite concat_app. rewrite app_nth1; [reflexivity|].
        rewrite (concat_length_packed lw) by exact WP. rewrite LM, Nat.pow_add_r. nia. }
    assert (CC : (match arities with a :: _ => a | [] => (ld + lbs)%nat end) = c) by (unfold c; destruct arities; reflexivity).
    rewrite CC. unfold fp_log_len. cbn [p fp_code fp_log_batch]. unfold rs_log_len. cbn [rs_log_dim rs_log_inv_rate]. unfold sub_or_panic.
    rewrite (proj2 (Nat.ltb_ge (ld + lr + lbs) c)) by lia. cbn [rbind].
    set (cs := if (lw <? c)%nat then _ else _).
    assert (CS : length cs = (2 ^ (ld + lr + lbs - c))%nat /\ forall i, (i < 2 ^ (ld + lr + lbs - c))%nat -> nth i cs [] = batch (2 ^ c) i (concat encoded)).
    { unfold cs. destruct (Nat.ltb_spec lw c).
      - split; [apply (big_chunks_nth F lw c _ encoded 0); auto; try lia; apply pow2_pos|]. intros i Hi. apply (big_chunks_nth F lw c (ld + lr + lbs - c)); auto. lia.
      - split; [apply (small_chunks_nth F lw c _ encoded 0); auto; try lia; apply pow2_pos|]. intros i Hi. apply (small_chunks_nth F lw c (ld + lr + lbs - c)); auto. }
    destruct CS as [LCS HCS].
    destruct (commit_iterated_oracle F enc dec codec hash osz bsz compress utf8 hash_len compress_len osz_pos bsz_pos sched0 (concat encoded) c (ld + lr + lbs - c) cs)
      as (root & t & EC & OK); auto.
    { destruct IC as [-> _]. rewrite <- Nat.pow_add_r. f_equal. lia. }
    rewrite EC. cbn [rbind]. exists root, t, encoded. auto.
  Qed.

  Lemma cw_final ld lr lbs msg ch y : length ch = (ld + lbs)%nat -> (y < 2 ^ lr)%nat ->
    nth y (cw F basis ld lr lbs msg ch (ld + lbs)) 0 = mle msg ch.
  Proof.
    intros LC Hy. unfold cw. rewrite firstn_all2 by lia. unfold folded_codeword. cbv zeta. rewrite LC.
    replace (ld + lbs - lbs)%nat with ld by lia. replace (ld + lr - ld)%nat with lr by lia. rewrite nth_map_seq by auto.
    rewrite Nat.sub_diag, novel_poly_0. apply mle_ext. intros. f_equal.
  Qed.

  Lemma all_equal (x : F) n : (0 < n)%nat ->
    match map (fun _ => x) (seq 0 n) with [] => Panic | final_value :: rest => if forallb (fun y => feqb y final_value) rest then Ok final_value else Err end = Ok x.
  Proof.
    intros L. destruct n as [|n]; [lia|]. cbn [seq map]. assert (E : forallb (fun y => feqb y x) (map (fun _ => x) (seq 1 n)) = true).
    { apply forallb_forall. intros y Hy. apply in_map_iff in Hy as (? & <- & _). apply feqb_refl. }
    now rewrite E.
  Qed.

  Theorem fri_completeness good fri_fold lw ld lr lbs arities q code p (message : list (list F)) challenges sched0 sched indices stale :
    fri_fold_ok F basis good fri_fold ->
    (1 <= ld + lr)%nat -> with_ntt_subspace ts ld lr = Ok code -> new_params code lbs arities q = Ok p ->
    (forall a, In a arities -> (1 <= a)%nat) ->
    (forall a r, arities = a :: r -> (lbs <= a)%nat /\ good lbs a /\ forall b, In b r -> good 0%nat b) ->
    well_packed lw message -> (length message * 2 ^ lw = 2 ^ (ld + lbs))%nat ->
    length challenges = n_fold_rounds p ->
    schedule (fp_log_len p - hd (ld + lbs)%nat arities)%nat sched0 ->
    (forall i, (i < length arities)%nat ->
       schedule (fp_log_len p - list_sum (firstn (S i) arities) - nth (S i) arities (n_final_challenges p))%nat (sched i)) ->
    Forall (fun i => (i < 2 ^ index_bits p)%nat) indices ->
    (forall k, length (stale k) = scratch_len F p) ->
    exists root tree encoded fo fo' roots proof v,
      commit_interleaved F enc hash bsz compress lw ts p sched0 message = Ok (root, tree, encoded) /\
      folder_new F p (concat encoded) tree = Ok fo /\
      fold_all F enc hash bsz compress fri_fold sched fo challenges = Ok (fo', roots) /\
      finish_proof F enc fo' indices = Ok proof /\
      verifier_new F p root roots challenges = Ok v /\
      forall extra, verify F enc dec hash osz bsz compress utf8 v stale indices (proof ++ extra) =
        Ok (mle (scalar_at lw message) challenges, extra).
  Proof.
    intros FFOK LD1 EC EP POS FST WP LM LCH SC0 SCH IDX STALE.
    rewrite (rs_new_correct F H2 basis BI B1 ts HT ld lr LD1) in EC. destruct (Nat.ltb_spec (length basis) (ld + lr)) as [|LD2]; [discriminate|].
    injection EC as <-. destruct (new_params_ok _ _ _ _ _ _ EP) as [-> SUM]. cbn [rs_log_dim] in SUM. set (D := domain_basis basis (ld + lr)) in *.
    unfold n_fold_rounds in LCH. cbn [fp_code fp_log_batch rs_log_dim] in LCH. unfold fp_log_len in *. cbn [fp_code fp_log_batch] in *.
    unfold rs_log_len in *. cbn [rs_log_dim rs_log_inv_rate] in *.
    assert (LD : (1 <= ld + lr <= length basis)%nat) by lia.
    set (p := mkParams (mkRs D ld lr) lbs arities q) in *.
    assert (NF : n_final_challenges p = (ld + lbs - list_sum arities)%nat) by reflexivity.
    destruct (commit_interleaved_ok lw ld lr lbs arities q sched0 message LD SUM WP LM SC0) as (root & t & encoded & E1 & IC & OK0).
    fold D p in E1. set (code0 := concat encoded) in *.
    destruct (subdomain_tables F H2 basis BI (ld + lr) LD) as (vts & EV & VT). fold D in EV, VT.
    (* the tensor *)
    assert (FL : length (firstn lbs challenges) = lbs) by (rewrite firstn_length; lia).
    destruct (query_expand_correct F 0 (firstn lbs challenges)) as (qq & EQ & QH).
    destruct (expansion_correct F 0 _ qq (firstn lbs challenges) QH) as (tensor & ET & LT & HTn). rewrite FL in LT, HTn.
    rewrite Nat.sub_0_r, Nat.pow_0_r, Nat.mul_1_r in LT.
    (* schedules *)
    assert (SCHED : forall dn a ars, arities = dn ++ a :: ars ->
      schedule (ld + lr + lbs - (list_sum dn + a) - coset ld lbs arities ars) (sched (length dn))).
    { intros dn a ars EA. specialize (SCH (length dn)). rewrite EA in SCH at 1. rewrite app_length in SCH. cbn [length] in SCH. specialize (SCH ltac:(lia)).
      assert (FE : firstn (S (length dn)) arities = dn ++ [a]).
      { rewrite EA, firstn_app. rewrite firstn_all2 by lia. replace (S (length dn) - length dn)%nat with 1%nat by lia. reflexivity. }
      rewrite FE, list_sum_app in SCH. change (list_sum [a]) with (a + 0)%nat in SCH. rewrite Nat.add_0_r in SCH.
      assert (NE : nth (S (length dn)) arities (n_final_challenges p) = coset ld lbs arities ars).
      { rewrite EA at 1. rewrite app_nth2 by lia. replace (S (length dn) - length dn)%nat with 1%nat by lia. cbn [nth]. destruct ars; reflexivity. }
      rewrite NE in SCH. exact SCH. }
    destruct (blocks F basis enc dec codec hash osz bsz compress utf8 hash_len compress_len osz_pos bsz_pos ld lr lbs LD (scalar_at lw message) challenges LCH
                code0 IC tensor LT good fri_fold FFOK arities q SUM POS (fun a r E => conj (proj1 (FST a r E)) (proj1 (proj2 (FST a r E))))
                (fun a r b E I => proj2 (proj2 (FST a r E)) b I) sched SCHED arities [] t [] eq_refl eq_refl eq_refl)
      as (R & roots & pend & E3 & CH).
    cbn [list_sum fold_right skipn app] in E3. change (list_sum []) with 0%nat in E3, CH. cbn [skipn Nat.add] in E3, CH. fold D p in E3.
    set (fo := mkFolder F p code0 t [] 0 (next_of 0 arities) []) in *.
    set (fo' := mkFolder F p code0 t R (ld + lbs) None pend) in *.
    assert (NX : hd_error arities = next_of 0 arities) by (destruct arities; reflexivity).
    assert (E2 : folder_new F p code0 t = Ok fo).
    { unfold folder_new. destruct IC as [LC _]. rewrite LC. unfold fp_log_len, rs_log_len. cbn [p fp_code fp_log_batch rs_log_dim rs_log_inv_rate fp_arities].
      rewrite Nat.ltb_irrefl, NX. reflexivity. }
    set (v := mkVerifier F p root roots tensor (skipn lbs challenges)).
    assert (LRT : length roots = length arities).
    { destruct arities as [|a ars]; [now destruct CH as [_ ->]|]. destruct CH as [CH _].
      destruct (rchain_last F basis enc dec hash osz bsz compress utf8 ld lr lbs (scalar_at lw message) challenges (a :: ars) ars a R roots root CH)
        as (? & ? & ? & _ & _ & LR & _). exact LR. }
    assert (E5 : verifier_new F p root roots challenges = Ok v).
    { unfold verifier_new, n_oracles, n_fold_rounds. cbn [p fp_code fp_log_batch rs_log_dim fp_arities]. rewrite LRT, LCH, !Nat.eqb_refl. cbn [negb].
      rewrite EQ. cbn [rbind]. rewrite ET. reflexivity. }
    exists root, t, encoded, fo, fo', roots.
    destruct arities as [|a ars].
    - (* nothing is folded before the end *)
      destruct CH as [-> ->]. cbn [hd] in OK0. destruct OK0 as (L0 & VV & _).
      assert (NI : map_res (prove_query F enc p (fo_codeword F fo') (fo_committed F fo') (fo_rounds F fo')) indices = Ok (map (fun _ => []) indices)).
      { apply map_res_ok. reflexivity. }
      exists (concat (map enc code0)), v. split; [exact E1|]. split; [exact E2|]. split; [exact E3|]. split.
      { unfold finish_proof. cbn [fo' fo_params fo_curr_round fo_rounds fo_codeword fo_committed rev map]. cbv zeta.
        change (n_fold_rounds p) with (ld + lbs)%nat. rewrite Nat.eqb_refl. cbn [negb].
        change (layer_depths p) with (@nil nat). cbn [optimal_layers rbind].
        change (fo_codeword F fo') with code0 in NI. change (fo_committed F fo') with t in NI. change (fo_rounds F fo') with (@nil (list F * tree)) in NI.
        fold p. rewrite NI. cbn [rbind map concat app]. f_equal.
        assert (EN : concat (map (fun _ : nat => @nil byte) indices) = []) by (clear; induction indices; auto). rewrite EN, app_nil_r. reflexivity. }
      split; [exact E5|]. intros extra. unfold verify. cbn [v v_params v_rounds v_commitment]. change (rs_subspace (fp_code p)) with D. change (rs_log_inv_rate (fp_code p)) with lr. rewrite NF, EV. cbn [rbind].
      assert (TL : (2 ^ (ld + lbs - list_sum [] + lr))%nat = length code0).
      { change (list_sum []) with 0%nat. destruct IC as [LC _]. rewrite LC. f_equal. lia. }
      rewrite TL, (read_scalars_ok F enc dec codec). cbn [rbind].
      assert (LO : verify_last_oracle F enc hash bsz compress v vts code0 = Ok (mle (scalar_at lw message) challenges)).
      { unfold verify_last_oracle. cbv zeta. cbn [v v_params v_rounds v_commitment last v_challenges v_tensor].
        assert (NF2 : n_final_challenges p = (ld + lbs)%nat) by (rewrite NF; change (list_sum []) with 0%nat; lia). rewrite NF2, VV. cbn [rbind].
        cbn [p n_oracles fp_arities length Nat.eqb negb fp_code fp_log_batch rs_log_dim]. unfold rs_log_len. cbn [rs_log_dim rs_log_inv_rate].
        rewrite (combine_chunks (2 ^ (ld + lbs)) (2 ^ lr)); [|apply pow2_pos|rewrite L0; f_equal; f_equal; lia].
        rewrite (map_res_ok _ (fun _ => mle (scalar_at lw message) challenges)).
        - cbn [rbind]. rewrite map_map. apply all_equal, pow2_pos.
        - intros [i c] Hi. apply in_map_iff in Hi as (j & E & Hj). injection E as <- <-. apply in_seq in Hj.
          pose proof (vfold0 F H2 basis BI osz bsz osz_pos bsz_pos ld lr lbs LD (scalar_at lw message) challenges LCH vts VT code0 IC tensor LT HTn
                   (ld + lbs) j (repeat 0 (2 ^ ld))) as VF.
          replace (ld + lbs - lbs)%nat with ld in VF by lia. rewrite (firstn_all2 (skipn lbs challenges)) in VF by (rewrite skipn_length; lia).
          rewrite VF; [|lia| |rewrite repeat_length; lia].
          + cbn [of_opt]. f_equal. apply cw_final; [exact LCH|lia].
          + replace (ld + lr + lbs - (ld + lbs))%nat with lr by lia. lia. }
      fold p. fold v. rewrite LO. cbn [rbind]. unfold layer_depths. cbn [p fp_arities scan_depths read_layers rbind verify_layers].
      assert (VQ : forall k, verify_queries F enc dec hash osz bsz compress utf8 v vts code0 [] stale k indices extra = Ok extra).
      { clear. induction indices as [|i is IH]; intros k; [reflexivity|]. cbn [verify_queries]. unfold verify_query. cbn [v v_params p fp_arities rbind]. apply IH. }
      rewrite VQ. reflexivity.
    - destruct (FST a ars eq_refl) as (LA & _ & _). destruct CH as [CH _].
      change (list_sum (a :: ars)) with (a + list_sum ars)%nat in *. cbn [hd] in OK0.
      set (S0 := (a + list_sum ars)%nat) in *.
      destruct (rchain_last F basis enc dec hash osz bsz compress utf8 ld lr lbs (scalar_at lw message) challenges (a :: ars) ars a R roots root CH)
        as (l & tl & rl & RV & LAST & _ & OKL). change (list_sum (a :: ars)) with S0 in OKL. fold S0 in OKL, RV.
      set (CW := cw F basis ld lr lbs (scalar_at lw message) challenges) in *.
      destruct (queries_ok F H2 basis BI enc dec hash osz bsz compress utf8 osz_pos bsz_pos ld lr lbs LD (scalar_at lw message) challenges LCH vts VT
                  tensor LT (a :: ars) q SUM root roots (CW S0) ars a R roots CH LA ltac:(fold S0; lia) eq_refl)
        as (layers & Q1 & Q2 & Q3 & Q4).
      fold D p v in Q4.
      destruct OK0 as (L0 & _ & OPN). set (dp := optimal_verify_layer q (ld + lr + lbs - a)).
      destruct (OPN dp) as (lay & L1 & L2 & L3 & L4 & L5); [unfold dp, optimal_verify_layer; lia|].
      set (depths := scan_depths q (ld + lr + lbs - a) ars) in *.
      assert (LDP : layer_depths p = dp :: depths) by reflexivity.
      assert (IB : index_bits p = (ld + lr + lbs - a)%nat) by reflexivity.
      (* every query *)
      assert (QQ : forall i, (i < 2 ^ index_bits p)%nat -> exists bytes, prove_query F enc p code0 t R i = Ok bytes /\
                forall k extra, verify_query F enc dec hash osz bsz compress utf8 v vts (CW S0) (lay :: layers) (stale k) i (bytes ++ extra) = Ok extra).
      { intros i Hi. rewrite IB in Hi. destruct (L5 i Hi) as (b & P1 & P2). destruct (Q4 i Hi) as (bs & P3 & P4).
        exists (b ++ bs). split.
        - unfold prove_query. rewrite LDP. cbn [p fp_arities]. rewrite P1. cbn [rbind]. rewrite P3. reflexivity.
        - intros k extra. unfold verify_query. cbn [v v_params v_tensor v_challenges]. cbn [p fp_arities]. fold p. rewrite LDP, IB.
          unfold sub_or_panic. cbn [p fp_log_batch]. rewrite (proj2 (Nat.ltb_ge a lbs)) by lia. cbn [rbind]. rewrite <- app_assoc, P2. cbn [rbind].
          unfold slice_of. rewrite skipn_length, LCH, (proj2 (Nat.ltb_ge _ _)) by lia. cbn [rbind skipn].
          cbn [fp_code]. unfold rs_log_len. cbn [rs_log_dim rs_log_inv_rate].
          rewrite (vfold0 F H2 basis BI osz bsz osz_pos bsz_pos ld lr lbs LD (scalar_at lw message) challenges LCH vts VT code0 IC tensor LT HTn).
          + cbn [of_opt rbind]. apply P4.
          + lia.
          + exact Hi.
          + rewrite STALE. unfold scratch_len. cbn [p fp_arities]. assert (2 ^ (a - lbs) <= 2 ^ list_max (a :: ars))%nat; [|lia].
            apply pow2_le. pose proof (list_max_in a (a :: ars) (or_introl eq_refl)). lia. }
      assert (QS : exists qs, map_res (prove_query F enc p code0 t R) indices = Ok qs /\
                forall k extra, verify_queries F enc dec hash osz bsz compress utf8 v vts (CW S0) (lay :: layers) stale k indices (concat qs ++ extra) = Ok extra).
      { clear - QQ IDX. induction IDX as [|i is Hi _ IH]; [exists []; split; reflexivity|].
        destruct (QQ i Hi) as (b & P1 & P2). destruct IH as (qs & P3 & P4). exists (b :: qs). cbn [map_res]. rewrite P1. cbn [rbind]. rewrite P3.
        split; [reflexivity|]. intros k extra. cbn [verify_queries concat]. rewrite <- app_assoc, P2. cbn [rbind]. apply P4. }
      destruct QS as (qs & QS1 & QS2).
      exists (concat (map enc (CW S0)) ++ concat (map (@concat byte) (lay :: layers)) ++ concat qs), v.
      split; [exact E1|]. split; [exact E2|]. split; [exact E3|]. split.
      { unfold finish_proof. cbn [fo' fo_params fo_curr_round fo_rounds fo_codeword fo_committed]. cbv zeta.
        change (n_fold_rounds p) with (ld + lbs)%nat. rewrite Nat.eqb_refl. cbn [negb]. rewrite RV, LDP. cbn [map snd optimal_layers].
        rewrite L1. cbn [rbind]. rewrite Q1. cbn [rbind]. rewrite QS1. reflexivity. }
      split; [exact E5|]. intros extra. unfold verify. cbn [v v_params v_rounds v_commitment]. change (rs_subspace (fp_code p)) with D. change (rs_log_inv_rate (fp_code p)) with lr. rewrite NF, EV. cbn [rbind].
      assert (LCW : length (CW S0) = (2 ^ (ld + lbs - S0 + lr))%nat).
      { unfold CW. rewrite (cw_length F basis osz bsz osz_pos bsz_pos) by (auto; unfold S0 in *; lia). f_equal. lia. }
      rewrite <- LCW, <- app_assoc, (read_scalars_ok F enc dec codec). cbn [rbind].
      assert (LO : verify_last_oracle F enc hash bsz compress v vts (CW S0) = Ok (mle (scalar_at lw message) challenges)).
      { unfold verify_last_oracle. cbv zeta. cbn [v v_params v_rounds v_commitment v_challenges v_tensor]. rewrite LAST, NF.
        destruct OKL as (LL0 & VV & _). change (ld + lbs - list_sum (a :: ars))%nat with (ld + lbs - S0)%nat in *. rewrite VV. cbn [rbind].
        cbn [p n_oracles fp_arities length Nat.eqb negb fp_code rs_log_inv_rate].
        unfold sub_or_panic. rewrite skipn_length, LCH. rewrite (proj2 (Nat.ltb_ge _ _)) by (unfold S0 in *; lia). cbn [rbind].
        rewrite (combine_chunks (2 ^ (ld + lbs - S0)) (2 ^ lr)); [|apply pow2_pos|rewrite LCW, <- Nat.pow_add_r; f_equal; lia].
        rewrite (map_res_ok _ (fun _ => mle (scalar_at lw message) challenges)).
        - cbn [rbind]. rewrite map_map. apply all_equal, pow2_pos.
        - intros [i c] Hi. apply in_map_iff in Hi as (j & E & Hj). injection E as <- <-. apply in_seq in Hj.
          rewrite (batch_length osz bsz osz_pos bsz_pos _ _ (2 ^ lr)); [|rewrite LCW, <- Nat.pow_add_r; f_equal; lia|lia]. rewrite Nat.eqb_refl. cbn [negb].
          pose proof (vfold_nth F H2 basis BI osz bsz osz_pos bsz_pos ld lr lbs LD (scalar_at lw message) challenges LCH vts VT S0 (ld + lbs - S0) j) as VF.
          fold CW in VF. replace (S0 + (ld + lbs - S0))%nat with (ld + lbs)%nat in VF by lia.
          replace (ld + lr + lbs - S0)%nat with (ld + lbs - S0 + lr)%nat in VF by lia.
          rewrite Lists.skipn_add. replace (lbs + (ld + lbs - lbs - (ld + lbs - S0)))%nat with S0 by (unfold S0 in *; lia).
          rewrite (firstn_all2 (skipn S0 challenges)) in VF by (rewrite skipn_length; lia).
          rewrite VF; [|unfold S0 in *; lia|lia|].
          + cbn [of_opt]. f_equal. apply cw_final; [exact LCH|lia].
          + replace (ld + lr + lbs - (ld + lbs))%nat with lr by lia. lia. }
      fold v. rewrite LO. cbn [rbind]. rewrite LDP. cbn [read_layers map concat]. rewrite <- !app_assoc, <- L2, read_digests_ok by exact L3. cbn [rbind].
      rewrite Q3. cbn [rbind verify_layers]. rewrite L4. cbn [rbind]. rewrite Q2. cbn [rbind]. rewrite QS2. reflexivity.
  Qed.

  Lemma cpu_fri_fold_ok : fri_fold_ok F basis (fun _ _ => True) (cpu_fri_fold ts).
  Proof.
    intros n m lbs msg cs cw L LB Lm _ IC. apply (cpu_fri_fold_correct F H2 basis BI B1 ts HT n m lbs msg); auto. apply repeat_length.
  Qed.

  Lemma fast_fri_fold_ok lw scratch : (forall k i, (2 ^ k <= length (scratch k i))%nat) ->
    fri_fold_ok F basis (fun lbs k => (lw <= k)%nat /\ (lbs = 0 \/ lw <= lbs)%nat)
      (fun n lbs cs => fast_fri_fold true lw ts (scratch (length cs - lbs)%nat) n lbs cs).
  Proof.
    intros HS n m lbs msg cs cw L LB Lm [G1 G2] IC. apply (fast_fri_fold_correct F H2 basis BI B1 ts HT n m lbs msg); auto.
  Qed.

  (** C55: with the folding kernel of the CPU compute layer *)
  Theorem fri_completeness_cpu lw ld lr lbs arities q code p (message : list (list F)) challenges sched0 sched indices stale :
    (1 <= ld + lr)%nat -> with_ntt_subspace ts ld lr = Ok code -> new_params code lbs arities q = Ok p ->
    (forall a, In a arities -> (1 <= a)%nat) -> (forall a r, arities = a :: r -> (lbs <= a)%nat) ->
    well_packed lw message -> (length message * 2 ^ lw = 2 ^ (ld + lbs))%nat ->
    length challenges = n_fold_rounds p ->
    schedule (fp_log_len p - hd (ld + lbs)%nat arities)%nat sched0 ->
    (forall i, (i < length arities)%nat ->
       schedule (fp_log_len p - list_sum (firstn (S i) arities) - nth (S i) arities (n_final_challenges p))%nat (sched i)) ->
    Forall (fun i => (i < 2 ^ index_bits p)%nat) indices ->
    (forall k, length (stale k) = scratch_len F p) ->
    exists root tree encoded fo fo' roots proof v,
      commit_interleaved F enc hash bsz compress lw ts p sched0 message = Ok (root, tree, encoded) /\
      folder_new F p (concat encoded) tree = Ok fo /\
      fold_all F enc hash bsz compress (cpu_fri_fold ts) sched fo challenges = Ok (fo', roots) /\
      finish_proof F enc fo' indices = Ok proof /\
      verifier_new F p root roots challenges = Ok v /\
      forall extra, verify F enc dec hash osz bsz compress utf8 v stale indices (proof ++ extra) =
        Ok (mle (scalar_at lw message) challenges, extra).
  Proof.
    intros. eapply fri_completeness; eauto using cpu_fri_fold_ok.
  Qed.

  (** C55: with the folding kernel of the packed compute layer, on its unpacked path.  [pw] is the width
      of its packed elements, which every arity must reach. *)
  Theorem fri_completeness_fast pw scratch lw ld lr lbs arities q code p (message : list (list F)) challenges sched0 sched indices stale :
    (forall k i, (2 ^ k <= length (scratch k i))%nat) ->
    (1 <= ld + lr)%nat -> with_ntt_subspace ts ld lr = Ok code -> new_params code lbs arities q = Ok p ->
    (forall a, In a arities -> (1 <= a /\ pw <= a)%nat) -> (forall a r, arities = a :: r -> (lbs <= a)%nat) -> (lbs = 0 \/ pw <= lbs)%nat ->
    well_packed lw message -> (length message * 2 ^ lw = 2 ^ (ld + lbs))%nat ->
    length challenges = n_fold_rounds p ->
    schedule (fp_log_len p - hd (ld + lbs)%nat arities)%nat sched0 ->
    (forall i, (i < length arities)%nat ->
       schedule (fp_log_len p - list_sum (firstn (S i) arities) - nth (S i) arities (n_final_challenges p))%nat (sched i)) ->
    Forall (fun i => (i < 2 ^ index_bits p)%nat) indices ->
    (forall k, length (stale k) = scratch_len F p) ->
    exists root tree encoded fo fo' roots proof v,
      commit_interleaved F enc hash bsz compress lw ts p sched0 message = Ok (root, tree, encoded) /\
      folder_new F p (concat encoded) tree = Ok fo /\
      fold_all F enc hash bsz compress (fun n lbs cs => fast_fri_fold true pw ts (scratch (length cs - lbs)%nat) n lbs cs) sched fo challenges = Ok (fo', roots) /\
      finish_proof F enc fo' indices = Ok proof /\
      verifier_new F p root roots challenges = Ok v /\
      forall extra, verify F enc dec hash osz bsz compress utf8 v stale indices (proof ++ extra) =
        Ok (mle (scalar_at lw message) challenges, extra).
  Proof.
    intros HS LD EC EP POS FST LB. intros. eapply fri_completeness; eauto using (fast_fri_fold_ok pw scratch HS).
    - intros a Ha. now destruct (POS a Ha).
    - intros a r E. split; [now apply (FST a r)|]. split.
      + split; auto. apply POS. rewrite E. now left.
      + intros b Hb. split; auto. apply POS. rewrite E. now right.
  Qed.
End FriProps.

(** Parameters with a zero arity are accepted, but then the prover never sends the commitments that the
    verifier asks for. *)
Theorem fri_zero_arity_refuted (F : field) (enc : F -> list byte) hash bsz compress fri_fold sched (code : rs_code F) lbs rest q
    codeword tree (challenges : list F) root :
  list_sum rest < rs_log_dim code + lbs -> length codeword = 2 ^ (rs_log_len code + lbs) ->
  exists p fo fo', new_params code lbs (0 :: rest) q = Ok p /\ folder_new F p codeword tree = Ok fo /\
    fold_all F enc hash bsz compress fri_fold sched fo challenges = Ok (fo', []) /\
    verifier_new F p root [] challenges = Err.
Proof.
  intros HS LC. set (p := mkParams code lbs (0 :: rest) q). exists p.
  set (fo := mkFolder F p codeword tree [] 0 (Some 0) []). exists fo.
  assert (G : forall cs n pend, n = 0 \/ 0 < n -> exists fo', fold_all F enc hash bsz compress fri_fold sched (mkFolder F p codeword tree [] n (Some 0) pend) cs = Ok (fo', [])).
  { induction cs as [|c cs IH]; intros n pend Hn; [eexists; reflexivity|]. cbn [fold_all]. unfold execute_fold_round.
    cbn [fo_params fo_codeword fo_committed fo_rounds fo_curr_round fo_next_commit fo_pending Nat.eqb negb rbind].
    destruct (IH (S n) (pend ++ [c])) as [fo' E]; [lia|]. exists fo'. now rewrite E. }
  destruct (G challenges 0 []) as [fo' E]; [now left|]. exists fo'.
  split; [now apply new_params_accepts|]. split.
  - unfold folder_new, fp_log_len. cbn [p fp_code fp_log_batch fp_arities hd_error]. rewrite LC, Nat.ltb_irrefl. reflexivity.
  - split; [exact E|reflexivity].
Qed.

(** Parameters whose first arity is smaller than the batch are accepted, but proving and checking panic. *)
Theorem fri_small_first_arity_refuted (F : field) (enc : F -> list byte) dec hash osz bsz compress utf8 fri_fold sched (code : rs_code F) lbs a rest q
    codeword tree (challenges : list F) root roots tensor vts term layers scratch index tape :
  1 <= a < lbs -> a + list_sum rest < rs_log_dim code + lbs -> length codeword = 2 ^ (rs_log_len code + lbs) ->
  length challenges = rs_log_dim code + lbs ->
  exists p fo, new_params code lbs (a :: rest) q = Ok p /\ folder_new F p codeword tree = Ok fo /\
    fold_all F enc hash bsz compress fri_fold sched fo challenges = Panic /\
    verify_query F enc dec hash osz bsz compress utf8 (mkVerifier F p root roots tensor challenges) vts term layers scratch index tape = Panic.
Proof.
  intros LA SUM LC LCH. set (p := mkParams code lbs (a :: rest) q). exists p.
  set (fo := mkFolder F p codeword tree [] 0 (Some a) []). exists fo.
  split; [now apply new_params_accepts|]. split.
  { unfold folder_new, fp_log_len. cbn [p fp_code fp_log_batch fp_arities hd_error]. rewrite LC, Nat.ltb_irrefl. reflexivity. }
  split.
  - assert (G : forall cs pend, length pend < a -> a <= length pend + length cs ->
      fold_all F enc hash bsz compress fri_fold sched (mkFolder F p codeword tree [] (length pend) (Some a) pend) cs = Panic).
    { induction cs as [|c cs IH]; intros pend L1 L2; [cbn [length] in L2; lia|]. cbn [fold_all]. unfold execute_fold_round.
      cbn [fo_params fo_codeword fo_committed fo_rounds fo_curr_round fo_next_commit fo_pending rev].
      destruct (Nat.eqb_spec a (S (length pend))) as [E|NE]; cbn [negb rbind].
      - rewrite app_length. cbn [length p fp_log_batch]. unfold sub_or_panic. rewrite (proj2 (Nat.ltb_lt _ _)) by lia. reflexivity.
      - cbn [length] in L2. specialize (IH (pend ++ [c])). rewrite app_length in IH. cbn [length] in IH.
        replace (length pend + 1) with (S (length pend)) in IH by lia. rewrite IH by lia. reflexivity. }
    apply (G challenges []); cbn [length]; lia.
  - unfold verify_query. cbn [v_params p fp_arities fp_log_batch]. destruct layers; [reflexivity|].
    destruct (layer_depths _); [reflexivity|]. unfold sub_or_panic. rewrite (proj2 (Nat.ltb_lt a lbs)) by lia. reflexivity.
Qed.

(** A toy instance with one-byte scalars and two-byte digests. *)
Definition ex_enc (x : X16) : list byte := [bits x].
Definition ex_dec (l : list byte) : res (X16 * list byte) := match l with b :: r => Ok (el b, r) | [] => Err end.
Definition ex_hash (l : list byte) : list byte := [N.modulo (fold_left N.add l 1) 256; N.modulo (fold_left (fun a b => 3 * a + b) l 7) 256]%N.
Definition ex_compress (a b : list byte) : list byte := ex_hash (a ++ b).
Definition ex_sched (i : nat) (k : nat) : list nat := seq 0 (2 ^ (i - k)).

(** A message of eight scalars in packed elements of two, batches of two, two committed folds, two queries. *)
Fact fri_completeness_ex :
  match otf_generate (els [1; 2; 4]%N) with
  | Ok ts =>
    match with_ntt_subspace ts 2 1 with
    | Ok code =>
      match new_params code 1 [1; 1] 2 with
      | Ok p =>
        let message := [els [1; 2]; els [3; 4]; els [5; 6]; els [7; 8]]%N in
        let challenges := els [9; 5; 11]%N in
        match commit_interleaved X16 ex_enc ex_hash 2 ex_compress 1 ts p (ex_sched 3) message with
        | Ok (root, t, encoded) =>
          match folder_new X16 p (concat encoded) t with
          | Ok fo =>
            match fold_all X16 ex_enc ex_hash 2 ex_compress (cpu_fri_fold ts) (fun i => ex_sched (2 - i)) fo challenges with
            | Ok (fo', roots) =>
              match finish_proof X16 ex_enc fo' [5; 2], verifier_new X16 p root roots challenges with
              | Ok proof, Ok v =>
                match verify X16 ex_enc ex_dec ex_hash 2 2 ex_compress (fun _ => true) v (fun _ => els [0; 0; 0; 0]%N) [5; 2] (proof ++ [77%N]) with
                | Ok (x, rest) => bits x = bits (mle (scalar_at 1 message) challenges) /\ rest = [77%N] /\ index_bits p = 3 /\ length roots = 2
                | _ => False end
              | _, _ => False end
            | _ => False end
          | _ => False end
        | _ => False end
      | _ => False end
    | _ => False end
  | _ => False end.
Proof. vm_compute. repeat split; reflexivity. Qed.
