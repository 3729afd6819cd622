(** C54: the parameters of the FRI protocol. *)
Require Import Coq.NArith.NArith Coq.Arith.Arith Coq.Lists.List Coq.Bool.Bool Lia.
From Verif Require Import Base.Fld Base.Lists Base.Sums Ntt.TwiddleModel Ntt.NttModel Code.RsModel Merkle.MerkleModel
  Field.Examples Fri.FriModel.
Import ListNotations.
Local Open Scope nat_scope.

Section Params.
  Variable F : field.
  Implicit Types p : fri_params F.

  (** The constructor accepts exactly the arity sequences that leave at least one round. *)
  Theorem new_params_accepts (code : rs_code F) lbs arities q :
    (list_sum arities < rs_log_dim code + lbs -> new_params code lbs arities q = Ok (mkParams code lbs arities q)) /\
    (rs_log_dim code + lbs <= list_sum arities -> new_params code lbs arities q = Err).
  Proof.
    unfold new_params. destruct (Nat.leb_spec (rs_log_dim code + lbs) (list_sum arities)); split; intros; auto; lia.
  Qed.

  Lemma new_params_ok (code : rs_code F) lbs arities q p : new_params code lbs arities q = Ok p ->
    p = mkParams code lbs arities q /\ list_sum arities < rs_log_dim code + lbs.
  Proof.
    unfold new_params. destruct (Nat.leb_spec (rs_log_dim code + lbs) (list_sum arities)); [discriminate|].
    intros E. injection E as <-. auto.
  Qed.

  Lemma list_sum_firstn_le (l : list nat) : forall i, list_sum (firstn i l) <= list_sum l.
  Proof. induction l as [|a l IH]; intros [|i]; cbn [firstn list_sum fold_right]; try (cbn; lia). specialize (IH i). unfold list_sum in IH. lia. Qed.

  Lemma scan_depths_nth q : forall arities n i, i < length arities ->
    nth i (scan_depths q n arities) 0 = optimal_verify_layer q (n - list_sum (firstn (S i) arities)).
  Proof.
    induction arities as [|a r IH]; intros n i Hi; [cbn in Hi; lia|]. cbn [scan_depths]. destruct i as [|i].
    - cbn [nth firstn list_sum fold_right]. f_equal. lia.
    - cbn [nth]. rewrite IH by (cbn in Hi; lia). f_equal. cbn [firstn list_sum fold_right]. lia.
  Qed.
  Lemma scan_depths_length q : forall arities n, length (scan_depths q n arities) = length arities.
  Proof. induction arities as [|a r IH]; intros n; cbn [scan_depths length]; auto. Qed.

  (** C54: the rounds of accepted parameters add up.  The oracle after the first [i] arities has
      [log_len - sum of these arities] index bits; the last one is the final code, of dimension
      [n_final] > 0 at the same rate. *)
  Theorem fri_params_accounting (code : rs_code F) lbs arities q p : new_params code lbs arities q = Ok p ->
    n_fold_rounds p = rs_log_dim code + lbs /\
    list_sum arities + n_final_challenges p = n_fold_rounds p /\ 0 < n_final_challenges p /\
    fp_log_len p = n_fold_rounds p + rs_log_inv_rate code /\
    (forall a rest, arities = a :: rest -> index_bits p + a = fp_log_len p) /\
    (arities = [] -> index_bits p = 0) /\
    (forall i, i <= length arities ->
       fp_log_len p - list_sum (firstn i arities) =
       list_sum (skipn i arities) + n_final_challenges p + rs_log_inv_rate code) /\
    fp_log_len p - list_sum arities = n_final_challenges p + rs_log_inv_rate code.
  Proof.
    intros E. apply new_params_ok in E as [-> L].
    unfold n_fold_rounds, n_final_challenges, fp_log_len, index_bits, n_fold_rounds, rs_log_len. cbn [fp_code fp_log_batch fp_arities fp_queries].
    repeat split; try lia.
    - intros a rest ->. cbn [list_sum fold_right] in L. cbv beta iota. unfold fp_log_len, rs_log_len. cbn [fp_code fp_log_batch]. lia.
    - intros ->. reflexivity.
    - intros i Hi. pose proof (list_sum_app (firstn i arities) (skipn i arities)) as S. rewrite firstn_skipn in S. lia.
  Qed.

  (** C54: one layer per oracle, at depth [min (ceil (log2 queries)) (depth of its tree)]; no
      subtraction underflows, and every tree has at least two leaves. *)
  Theorem fri_layer_depths (code : rs_code F) lbs arities q p : new_params code lbs arities q = Ok p ->
    length (layer_depths p) = n_oracles p /\
    forall i, i < n_oracles p ->
      let tree_depth := fp_log_len p - list_sum (firstn (S i) arities) in
      list_sum (firstn (S i) arities) <= fp_log_len p /\
      0 < tree_depth /\
      nth i (layer_depths p) 0 = Nat.min (Nat.log2_up q) tree_depth /\
      nth i (layer_depths p) 0 <= tree_depth.
  Proof.
    intros E. pose proof (fri_params_accounting _ _ _ _ _ E) as (_ & _ & NF & _ & _ & _ & AC & _).
    apply new_params_ok in E as [-> L]. unfold layer_depths, n_oracles in *. cbn [fp_code fp_log_batch fp_arities fp_queries] in *.
    split; [apply scan_depths_length|]. intros i Hi. cbv zeta.
    pose proof (AC (S i) ltac:(lia)) as A. pose proof (list_sum_firstn_le arities (S i)).
    rewrite scan_depths_nth by auto. unfold optimal_verify_layer.
    unfold fp_log_len, rs_log_len in *. cbn [fp_code fp_log_batch] in *. repeat split; lia.
  Qed.

  (** ** Constant arity *)
  Lemma list_sum_repeat a n : list_sum (repeat a n) = n * a.
  Proof. induction n; cbn [repeat list_sum fold_right]; [reflexivity|]. fold (list_sum (repeat a n)). rewrite IHn. lia. Qed.

  (** C54: the parameters chosen for a constant arity fold a message of [2^log_msg_len] scalars; the
      terminal codeword is at least as long as the Merkle cap (if the codeword is), and one more fold would
      make it shorter, so that all caps have the full height. *)
  Theorem choose_constant_correct (ts : list (twiddle F)) nq log_msg_len lir arity p :
    choose_constant ts nq log_msg_len lir arity = Ok p ->
    exists q, nq (fp_code p) = Ok q /\ fp_queries p = q /\ 0 < arity /\
      rs_log_inv_rate (fp_code p) = lir /\
      n_fold_rounds p = log_msg_len /\ (forall a, In a (fp_arities p) -> a = arity) /\
      (fp_arities p <> [] -> fp_log_batch p <= arity /\ log_msg_len + lir >= Nat.log2_up q + arity /\
        n_final_challenges p + lir >= Nat.log2_up q /\
        forall d, In d (layer_depths p) -> d = Nat.log2_up q) /\
      n_final_challenges p + lir < Nat.max (Nat.log2_up q) lir + arity.
  Proof.
    unfold choose_constant. destruct (Nat.eqb_spec arity 0) as [|A0]; [discriminate|].
    destruct (with_ntt_subspace ts (log_msg_len - arity) lir) as [code| |] eqn:EC; try discriminate. cbn [rbind].
    destruct (nq code) as [q| |] eqn:EQ; try discriminate. cbn [rbind]. intros E.
    assert (CD : rs_log_dim code = log_msg_len - arity /\ rs_log_inv_rate code = lir).
    { unfold with_ntt_subspace, with_subspace in EC. destruct (length ts <? _); [discriminate|].
      destruct (ntt_subspace ts _) as [s|]; [|discriminate]. cbn [of_opt rbind] in EC. destruct (length s =? _); [|discriminate].
      now injection EC as <-. }
    destruct CD as [CD CR]. pose proof (fri_params_accounting _ _ _ _ _ E) as (NF & SF & NP & LL & _ & _ & _ & _).
    pose proof (fri_layer_depths _ _ _ _ _ E) as [LDL LDN].
    assert (E' := E). apply new_params_ok in E' as [-> L]. cbn [fp_code fp_log_batch fp_arities fp_queries] in *.
    exists q. unfold constant_arities in *. set (cap := Nat.log2_up q) in *. set (n := (log_msg_len - (cap - lir)) / arity) in *.
    rewrite list_sum_repeat in *. rewrite CD in *.
    assert (ML : log_msg_len - arity + Nat.min log_msg_len arity = log_msg_len) by lia.
    rewrite ML in *.
    assert (DM : n * arity <= log_msg_len - (cap - lir) < n * arity + arity).
    { unfold n. pose proof (Nat.div_mod (log_msg_len - (cap - lir)) arity A0). pose proof (Nat.mod_upper_bound (log_msg_len - (cap - lir)) arity A0). nia. }
    split; [exact EQ|]. split; [reflexivity|]. split; [lia|]. split; [exact CR|]. split; [lia|].
    split; [intros a Ha; now apply repeat_spec in Ha|]. split.
    - intros NE. assert (N1 : 1 <= n) by (destruct n; [now destruct NE|lia]). assert (arity <= n * arity) by nia.
      split; [lia|]. split; [lia|]. split; [lia|].
      intros d Hd. apply (In_nth _ _ 0) in Hd as (i & Hi & <-). rewrite LDL in Hi. destruct (LDN i Hi) as (B1 & B2 & B3 & _). rewrite B3.
      apply Nat.min_l. pose proof (list_sum_firstn_le (repeat arity n) (S i)) as LS. rewrite list_sum_repeat in LS.
      change (cap <= fp_log_len (mkParams code (Nat.min log_msg_len arity) (repeat arity n) q) - list_sum (firstn (S i) (repeat arity n))).
      rewrite LL, NF. lia.
    - lia.
  Qed.

  (** Apart from the errors of its callees, the choice is rejected exactly for a zero-variate message, and when
      the cap is no higher than the rate while the arity divides the message length: then the arities
      would fold everything, although stopping one round earlier would be possible. *)
  Theorem choose_constant_rejects (ts : list (twiddle F)) nq log_msg_len lir arity code q : 0 < arity ->
    with_ntt_subspace ts (log_msg_len - arity) lir = Ok code -> nq code = Ok q ->
    (choose_constant ts nq log_msg_len lir arity = Err <->
     log_msg_len = 0 \/ (Nat.log2_up q <= lir /\ log_msg_len mod arity = 0)).
  Proof.
    intros A0 EC EQ. unfold choose_constant. destruct (Nat.eqb_spec arity 0) as [|_]; [lia|]. rewrite EC. cbn [rbind]. rewrite EQ. cbn [rbind].
    assert (CD : rs_log_dim code = log_msg_len - arity).
    { unfold with_ntt_subspace, with_subspace in EC. destruct (length ts <? _); [discriminate|].
      destruct (ntt_subspace ts _) as [s|]; [|discriminate]. cbn [of_opt rbind] in EC. destruct (length s =? _); [|discriminate].
      now injection EC as <-. }
    unfold new_params, constant_arities. rewrite list_sum_repeat, CD. replace (log_msg_len - arity + Nat.min log_msg_len arity) with log_msg_len by lia.
    set (x := log_msg_len - (Nat.log2_up q - lir)).
    pose proof (Nat.div_mod x arity ltac:(lia)) as DM. pose proof (Nat.mod_upper_bound x arity ltac:(lia)) as MB.
    destruct (Nat.leb_spec log_msg_len (x / arity * arity)) as [H|H]; split; try tauto; try discriminate.
    - intros _. destruct (Nat.eq_dec log_msg_len 0); [now left|right]. assert (x = log_msg_len) by nia.
      split; [unfold x in *; lia|]. rewrite <- H0. nia.
    - intros [->|[H1 H3]]; [cbn in H; lia|]. assert (x = log_msg_len) by (unfold x; lia). rewrite H0 in *. nia.
  Qed.
End Params.

(** The heuristic returns the first arity at which the estimated size stops falling. *)
Lemma scan_best_spec cost : forall n s, exists a,
  scan_best cost (Some (s, cost s)) (seq (S s) n) = Some (a, cost a) /\ s <= a <= s + n /\
  (forall b, s <= b < a -> cost (S b) <= cost b) /\ (a < s + n -> cost a < cost (S a)).
Proof.
  induction n as [|n IH]; intros s; cbn [seq scan_best].
  - exists s. repeat split; auto; try lia.
  - destruct (Nat.ltb_spec (cost s) (cost (S s))) as [H|H].
    + exists s. repeat split; auto; try lia.
    + destruct (IH (S s)) as (a & E & B & C & D). exists a. split; [exact E|]. split; [lia|]. split.
      * intros b Hb. destruct (Nat.eq_dec b s) as [->|]; auto. apply C. lia.
      * intros Ha. apply D. lia.
Qed.
Theorem estimate_optimal_arity_correct n digest_size field_size :
  let cost a := (n / 2 * digest_size + 2 ^ a * field_size) * (n - a) / a in
  let a := estimate_optimal_arity n digest_size field_size in
  1 <= a <= Nat.max 1 n /\ (forall b, 1 <= b < a -> cost (S b) <= cost b) /\ (a < n -> cost a < cost (S a)).
Proof.
  cbv zeta. unfold estimate_optimal_arity. destruct n as [|n].
  - cbn [seq scan_best]. repeat split; try lia.
  - cbn [seq scan_best]. destruct (scan_best_spec (arity_cost (S n) digest_size field_size) n 1) as (a & E & B & C & D).
    rewrite E. split; [lia|]. split; [exact C|]. intros Ha. apply D. lia.
Qed.

(** Non-vacuity: a code of dimension 2^6 at rate 1/2 interleaved 4 times, arities 3, 2. *)
Example fri_params_ex :
  let code := mkRs (repeat (el 1%N) 7) 6 1 in
  exists p, new_params code 2 [3; 2] 5 = Ok p /\ index_bits p = 6 /\ n_final_challenges p = 3 /\ layer_depths p = [3; 3] /\
  new_params code 2 [3; 5] 5 = Err.
Proof. eexists. split; [reflexivity|]. repeat split. Qed.

Definition choose_ex_ts : list (twiddle X16) := match otf_generate (els [1; 2; 4]%N) with Ok ts => ts | _ => [] end.
Example choose_constant_ex :
  match choose_constant choose_ex_ts (fun _ => Ok 4) 3 1 1 with Ok p => fp_arities p = [1; 1] | _ => False end /\
  match choose_constant choose_ex_ts (fun _ => Ok 2) 3 1 1 with Err => True | _ => False end.
Proof. split; vm_compute; [reflexivity|exact I]. Qed.
