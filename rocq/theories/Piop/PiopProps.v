(** C75: the verifier of the polynomial IOP compiler is sound.

    The message behind the commitment is a table [W] of [2^total_vars] scalars; the multilinears it holds are read off by
    [committed_multilin] (Piop/PiopLayout.v), which [merge_layout] shows to be the ones the prover committed.  If one of the
    claimed sums of products of committed and transparent multilinears is wrong then, except for few challenges, the
    verifier rejects or the value it obtains from FRI is not the value of the message at the challenges. *)
Require Import Coq.setoid_ring.Ring Coq.Arith.Arith Coq.Lists.List Coq.Bool.Bool Coq.Sorting.Sorted Lia.
From Coq Require Import NArith.NArith.
From Verif Require Import Base.Fld Base.Lists Base.Sums Base.Poly Field.Examples Math.MleSpec Math.UnivariateModel Math.UnivariateProps
  Math.PiecewiseModel Math.PiecewiseProps Protocol.Proto Protocol.Soundness Sumcheck.SumcheckModel Sumcheck.SumcheckSpec
  Sumcheck.SumcheckProofs Sumcheck.SumcheckSound Sumcheck.SumcheckProps Sumcheck.ZerocheckModel Sumcheck.ZerocheckProofs
  Piop.MetaModel Piop.MetaProps Piop.PiopModel Piop.PiopLayout Piop.PiopSound.
Import ListNotations.
Local Open Scope nat_scope.

Section Props.
  Variable F : field.
  Local Open Scope fld_scope.
  Add Ring Fring : (f_ring F).
  Notation c_lo := (c_lo F). Notation c_hi := (c_hi F). Notation t_lo := (t_lo F). Notation t_hi := (t_hi F).

  (* ---------------------------------------------------------------- *)
  (** * Specification *)
  (** A transparent polynomial evaluates to the multilinear extension of its table. *)
  Definition transparent_is (t : transparent F) (A : nat -> F) : Prop :=
    forall p, length p = tr_n t -> tr_eval t p = Ok (mle A p).

  (** The claimed sum is the sum over the hypercube of the product of the two multilinears. *)
  Definition piop_claim_true (counts : list nat) (W : nat -> F) (A : nat -> nat -> F) (c : piop_claim F) : Prop :=
    pc_sum F c = sumn (2 ^ pc_n_vars F c) (fun x => committed_multilin counts W (pc_n_vars F c) (pc_committed F c) x * A (pc_transparent F c) x).

  (* ---------------------------------------------------------------- *)
  Lemma fold_stuck {A B} (f : res B -> A -> res B) (HE : forall a, f Err a = Err) (HP : forall a, f Panic a = Panic) l :
    fold_left f l Err = Err /\ fold_left f l Panic = Panic.
  Proof. induction l as [|a l IH]; cbn [fold_left]; auto. now rewrite HE, HP. Qed.

  Lemma transparent_bound ts : forall cur (ds : list (claim_desc F)) out, fold_left (transparent_step F) ts (Ok (cur, ds)) = Ok out ->
    length (snd out) = length ds /\ Forall (fun t => (t < length ds)%nat) ts.
  Proof.
    destruct (fold_stuck (transparent_step F) (fun _ => eq_refl) (fun _ => eq_refl) ts) as [SE SP]. revert SE SP.
    induction ts as [|t ts IH]; intros SE SP cur ds out E; [cbn in E; injection E as <-; auto|].
    destruct (fold_stuck (transparent_step F) (fun _ => eq_refl) (fun _ => eq_refl) ts) as [SE' SP'].
    cbn [fold_left] in E. destruct (transparent_step F (Ok (cur, ds)) t) as [[cur' ds']| |] eqn:ES; [|congruence|congruence].
    destruct (IH SE' SP' _ _ _ E) as [L FA]. unfold transparent_step in ES. cbn [rbind] in ES.
    assert (X : length ds' = length ds /\ (t < length ds)%nat).
    { destruct (Nat.ltb_spec t cur); [discriminate|]. destruct (Nat.ltb_spec cur t) as [LT|GE].
      - destruct (nth_error ds cur) eqn:E1; cbn [of_opt rbind] in ES; [|discriminate]. destruct (nth_error ds t) eqn:E2; cbn [of_opt rbind] in ES; [|discriminate].
        match type of ES with context [nth_error ?l t] => destruct (nth_error l t); cbn [of_opt rbind] in ES; [|discriminate] end.
        injection ES as <- <-. rewrite !upd_length. split; auto. apply nth_error_Some. congruence.
      - cbn [rbind] in ES. destruct (nth_error ds cur) eqn:E1; cbn [of_opt rbind] in ES; [|discriminate]. injection ES as <- <-. rewrite upd_length. split; auto.
        assert (cur < length ds)%nat by (apply nth_error_Some; congruence). lia. }
    destruct X as [X1 X2]. rewrite X1 in *. split; auto.
  Qed.

  Lemma claim_bound cs : forall (ds : list (claim_desc F)) out, fold_left (claim_step F) cs (Ok ds) = Ok out ->
    Forall (fun c => (pc_n_vars F c < length ds)%nat) cs.
  Proof.
    induction cs as [|c cs IH]; intros ds out E; [constructor|].
    destruct (fold_stuck (claim_step F) (fun _ => eq_refl) (fun _ => eq_refl) cs) as [SE SP].
    cbn [fold_left] in E. destruct (claim_step F (Ok ds) c) as [ds'| |] eqn:ES; [|congruence|congruence].
    pose proof (IH _ _ E) as FA. unfold claim_step in ES. cbn [rbind] in ES. destruct (nth_error ds (pc_n_vars F c)) eqn:E1; cbn [of_opt rbind] in ES; [|discriminate].
    destruct (negb _); [discriminate|]. destruct (negb _); [discriminate|]. destruct (index_composition _ _ _ _ _); cbn [rbind] in ES; [|discriminate|discriminate].
    injection ES as <-. rewrite upd_length in FA. constructor; auto. apply nth_error_Some. congruence.
  Qed.

  (** What the grouping of the claims gives, if it succeeds. *)
  Lemma descs_inv counts ts claims ds : make_sumcheck_claim_descs F (meta_new counts) ts claims = Ok ds ->
    let m := meta_new counts in
    Forall (accepted F m ts) claims /\ length ds = (max_n_vars m + 1)%nat /\
    forall v, (v < length ds)%nat -> exists lo hi tlo thi,
      nth_error ds v = Some (mkDesc F lo hi tlo thi (map (localized F lo hi tlo thi) (group F claims v))) /\
      (v < length counts -> lo = below counts v /\ hi = below counts (S v))%nat /\ (length counts <= v -> lo = hi)%nat /\ (forall i, (tlo <= i < thi)%nat <-> nth_error ts i = Some v).
  Proof.
    intros E m. assert (NM : n_multilins_by_vars m = counts) by (unfold m, meta_new; now rewrite meta_fold_spec).
    assert (B : Forall (fun t => (t <= max_n_vars m)%nat) ts /\ Forall (fun c => (pc_n_vars F c <= max_n_vars m)%nat) claims).
    { pose proof E as E'. unfold make_sumcheck_claim_descs in E'. fold m in E'. rewrite NM in E'.
      destruct (set_committed_spec F counts 0 (repeat (default_desc F) (max_n_vars m + 1))) as [LB _]; [rewrite repeat_length; unfold max_n_vars; rewrite NM; lia|].
      rewrite repeat_length in LB. destruct (fold_left (transparent_step F) ts _) as [[cur ds1]| |] eqn:E1; cbn [rbind] in E'; [|discriminate|discriminate].
      destruct (transparent_bound _ _ _ _ E1) as [L1 FA]. pose proof (claim_bound _ _ _ E') as FB. cbn [snd] in L1. rewrite L1 in FB. rewrite LB in FA, FB.
      split; (eapply Forall_impl; [|eassumption]); cbn; intros; lia. }
    destruct B as [B1 B2]. destruct (claim_descs_correct F counts ts claims B1 B2) as [C1 C2]. fold m in C1, C2, E.
    assert (SA : sorted_from 0 ts /\ Forall (accepted F m ts) claims).
    { assert (D1 : sorted_from 0 ts \/ ~ sorted_from 0 ts).
      { clear. generalize 0%nat. induction ts as [|t ts IH]; intros c; cbn; [now left|]. destruct (Nat.le_gt_cases c t), (IH t); try tauto. right. lia. }
      assert (D2 : Forall (accepted F m ts) claims \/ ~ Forall (accepted F m ts) claims).
      { clear. induction claims as [|c l [IH|IH]]; [left; constructor| |right; intros H; inversion H; tauto].
        assert (D : accepted F m ts c \/ ~ accepted F m ts c).
        { unfold accepted. destruct (range_by_vars m (pc_n_vars F c)) as [[lo hi]| |] eqn:ER.
          - destruct (le_lt_dec lo (pc_committed F c)) as [H1|H1]; [|right; intros [(l0 & h0 & Q & H) _]; injection Q as <- <-; lia].
            destruct (lt_dec (pc_committed F c) hi) as [H2|H2]; [|right; intros [(l0 & h0 & Q & H) _]; injection Q as <- <-; lia].
            destruct (nth_error ts (pc_transparent F c)) as [t|]; [|right; intros [_ Q]; discriminate].
            destruct (Nat.eq_dec t (pc_n_vars F c)) as [->|N]; [left; split; eauto|right; intros [_ Q]; congruence].
          - right. intros [(l0 & h0 & Q & H) _]. discriminate.
          - right. intros [(l0 & h0 & Q & H) _]. discriminate. }
        destruct D as [D|D]; [left; constructor; auto|right; intros H; inversion H; tauto]. }
      destruct D1 as [D1|D1]; [|rewrite C2 in E by tauto; discriminate]. destruct D2 as [D2|D2]; [auto|rewrite C2 in E by tauto; discriminate]. }
    destruct SA as [SA1 SA2]. destruct (C1 SA1 SA2) as (ds' & E' & LD & HD). rewrite E in E'. injection E' as <-.
    split; auto. split; auto. intros v Hv. destruct (HD v ltac:(lia)) as (lo & hi & tlo & thi & N1 & R1 & R2 & T1 & _).
    exists lo, hi, tlo, thi. split; auto. split; [|auto]. intros L. specialize (R1 L). unfold m in R1. rewrite range_ok in R1 by auto. now injection R1.
  Qed.

  Lemma collect_inv {X} (l : list (res X)) : forall xs, collect_res l = Ok xs -> l = map Ok xs.
  Proof.
    induction l as [|r l IH]; intros xs E; cbn [collect_res] in E; [injection E as <-; reflexivity|].
    destruct r; cbn [rbind] in E; try discriminate. destruct (collect_res l) eqn:EL; cbn [rbind] in E; try discriminate. injection E as <-. cbn [map]. f_equal. auto.
  Qed.

  Lemma combine_seq_in {X} (l : list X) : forall s v d, In (v, d) (combine (seq s (length l)) l) <-> exists k, v = (s + k)%nat /\ nth_error l k = Some d.
  Proof.
    induction l as [|a l IH]; intros s v d; cbn [length seq combine].
    - split; [intros []|intros (k & _ & E); destruct k; discriminate].
    - cbn [In]. rewrite IH. split.
      + intros [E|(k & -> & E)]; [injection E as <- <-; exists 0%nat; split; [lia|reflexivity]|exists (S k); split; [lia|exact E]].
      + intros ([|k] & -> & E); [left; cbn in E; injection E as <-; f_equal; lia|right; exists k; split; [lia|exact E]].
  Qed.

  Lemma non_empty_in (ds : list (claim_desc F)) v d : In (v, d) (non_empty ds) <-> nth_error ds v = Some d /\ (c_lo d < c_hi d)%nat.
  Proof.
    unfold non_empty. rewrite filter_In, combine_seq_in. cbn [snd]. rewrite Nat.ltb_lt. split.
    - intros [(k & -> & E) H]. auto.
    - intros [E H]. split; auto. now exists v.
  Qed.

  Lemma sorted_filter_seq {X} (f : nat * X -> bool) (l : list X) : forall s,
    StronglySorted lt (map fst (filter f (combine (seq s (length l)) l))) /\
    forall v, In v (map fst (filter f (combine (seq s (length l)) l))) -> (s <= v)%nat.
  Proof.
    induction l as [|a l IH]; intros s; cbn [length seq combine filter]; [split; [constructor|intros ? []]|].
    destruct (IH (S s)) as [S1 S2]. destruct (f (s, a)); cbn [map fst].
    - split.
      + constructor; auto. rewrite Forall_forall. intros v Hv. specialize (S2 v Hv). lia.
      + intros v [<-|Hv]; [lia|]. specialize (S2 v Hv). lia.
    - split; auto. intros v Hv. specialize (S2 v Hv). lia.
  Qed.

  Lemma non_empty_sorted (ds : list (claim_desc F)) : StronglySorted lt (map fst (non_empty ds)).
  Proof. apply sorted_filter_seq. Qed.

  (** The claim of a description: a sum of products of two of its multilinears. *)
  Lemma composite_ok (ps : product_sum F) cs : composite ps = Ok cs ->
    comp_ok (fst cs) /\ c_nv (fst cs) = ps_n F ps /\ c_deg (fst cs) = 2%nat /\ snd cs = ps_sum F ps /\
    forall q, length q = ps_n F ps -> c_eval (fst cs) q = Ok (nth (ps_left F ps) q 0 * nth (ps_right F ps) q 0).
  Proof.
    unfold composite. intros E. destruct (index_comp _ _ _) as [c| |] eqn:EI; cbn [expect rbind] in E; try discriminate. injection E as <-. cbn [fst snd].
    destruct (index_comp_ok F (ps_n F ps) [ps_left F ps; ps_right F ps] _ c (bivariate_product_ok F) eq_refl EI) as (K1 & K2 & K3 & K4). split; [exact K1|]. split; [exact K2|]. split; [exact K3|]. split; [reflexivity|]. intros q Hq. rewrite (K4 q Hq). reflexivity.
  Qed.

  Lemma desc_claim_ok vd c : desc_claim vd = Ok c ->
    cl_n c = fst vd /\ cl_m c = (n_committed (snd vd) + n_transparent (snd vd))%nat /\ map composite (sums F (snd vd)) = map Ok (cl_sums c).
  Proof.
    unfold desc_claim. intros E. destruct (collect_res _) as [cs| |] eqn:EC; cbn [rbind] in E; try discriminate. apply collect_inv in EC.
    unfold claim_new in E. destruct (existsb _ cs); [discriminate|]. injection E as <-. auto.
  Qed.

  (* ---------------------------------------------------------------- *)
  Lemma check_transparents_ok v chal : forall (claimed : list F) (ts : list (transparent F)), check_transparents v chal claimed ts = Ok tt ->
    length claimed = length ts -> (forall t, In t ts -> tr_n t = v) ->
    forall j t A, nth_error ts j = Some t -> transparent_is t A -> nth j claimed 0 = mle A (rev (firstn v chal)).
  Proof.
    induction claimed as [|e claimed IH]; intros [|t0 ts] E L HV j t A Ej HA; try discriminate; [destruct j; discriminate|].
    cbn [check_transparents] in E. destruct (Nat.ltb_spec (length chal) v) as [|LV]; [discriminate|].
    destruct (tr_eval t0 _) as [x| |] eqn:EX; cbn [rbind] in E; try discriminate. destruct (feqb_spec F e x) as [->|]; cbn [negb] in E; [|discriminate].
    destruct j as [|j]; cbn [nth nth_error] in *.
    - injection Ej as ->. rewrite HA in EX.
      + injection EX as <-. f_equal. now rewrite firstn_rev', rev_involutive || (rewrite skipn_rev; f_equal; f_equal; lia).
      + rewrite (HV t (or_introl eq_refl)), skipn_length, rev_length. lia.
    - eapply (IH ts); eauto. intros; apply HV; now right.
  Qed.

  Lemma transparent_evals_ok (ts : list (transparent F)) chal : forall (ne : list (nat * claim_desc F)) evals out,
    verify_transparent_evals ne evals ts chal = Ok out -> length evals = length ne ->
    out = flat_map (fun p => firstn (n_committed (snd (fst p))) (snd p)) (combine ne evals) /\
    forall v d e, In ((v, d), e) (combine ne evals) ->
      length e = (n_committed d + n_transparent d)%nat /\ (t_lo d <= t_hi d <= length ts)%nat /\
      check_transparents v chal (skipn (n_committed d) e) (firstn (n_transparent d) (skipn (t_lo d) ts)) = Ok tt.
  Proof.
    induction ne as [|[v0 d0] ne IH]; intros [|e0 evals] out E L; try discriminate.
    - cbn in E. injection E as <-. split; [reflexivity|intros ? ? ? []].
    - cbn [verify_transparent_evals] in E. destruct (Nat.ltb_spec (length e0) (n_committed d0)) as [|L1]; [discriminate|].
      destruct (Nat.eqb_spec (length e0 - n_committed d0) (n_transparent d0)) as [L2|]; cbn [negb] in E; [|discriminate].
      destruct (Nat.ltb_spec (t_hi d0) (t_lo d0)); [discriminate|]. destruct (Nat.ltb_spec (length ts) (t_hi d0)); [discriminate|]. cbn [orb] in E.
      destruct (check_transparents _ _ _ _) as [[]| |] eqn:EC; cbn [rbind] in E; try discriminate.
      destruct (verify_transparent_evals ne evals ts chal) as [rest| |] eqn:EV; cbn [rbind] in E; try discriminate. injection E as <-.
      destruct (IH evals rest EV) as [-> IN]; [now injection L|]. split; [reflexivity|].
      intros v d e [Q|HI]; [injection Q as <- <- <-; repeat split; auto; lia|auto].
  Qed.

  (* ---------------------------------------------------------------- *)
  (** The value of the message whose committed values are the claimed ones. *)
  Fixpoint flat_below (l : nat -> list F) (m : nat) : list F := match m with O => [] | S i => l i ++ flat_below l i end.

  Lemma evals_consts l p m : evals_below F (consts F l) p m = flat_below l m.
  Proof.
    induction m as [|m IH]; [reflexivity|]. cbn [evals_below flat_below]. rewrite IH. f_equal. unfold consts. rewrite map_map. rewrite <- (map_id (l m)) at 2.
    apply map_ext. intros a. apply mle_cst.
  Qed.

  Lemma values_ext l l' m : (forall i, (i < m)%nat -> l i = l' i) -> values_below F l m = values_below F l' m.
  Proof. induction m as [|m IH]; intros H; [reflexivity|]. cbn [values_below]. rewrite H, IH by (auto; lia). reflexivity. Qed.
  Lemma evals_ext l l' p m : (forall i, (i < m)%nat -> l i = l' i) -> evals_below F l p m = evals_below F l' p m.
  Proof. induction m as [|m IH]; intros H; [reflexivity|]. cbn [evals_below]. rewrite H, IH by (auto; lia). reflexivity. Qed.

  Lemma flat_rev l m : rev (flat_map (fun v => rev (l v)) (seq 0 m)) = flat_below l m.
  Proof.
    induction m as [|m IH]; [reflexivity|]. rewrite seq_S, flat_map_app, rev_app_distr, IH. cbn [flat_map flat_below Nat.add]. now rewrite app_nil_r, rev_involutive.
  Qed.

  Lemma piecewise_consts (l : nat -> list F) (ns : list nat) point M : length ns = M ->
    (forall v, (v < M)%nat -> length (l v) = nth v ns 0%nat) -> (0 < length (vb F l M) <= 2 ^ length point)%nat ->
    evaluate_piecewise_multilinear point ns (flat_below l M) = Ok (mle (fun x => nth x (vb F l M) 0) point).
  Proof.
    intros LN HL HB. set (levels := map (consts F l) (seq 0 M)).
    assert (LV : forall i, (i < M)%nat -> nth i levels [] = consts F l i) by (intros i Hi; unfold levels; now rewrite nth_map_seq).
    assert (LM : length levels = M) by (unfold levels; now rewrite map_length, seq_length).
    pose proof (piecewise_correct F point levels) as PC. cbv zeta in PC. rewrite LM in PC.
    rewrite (values_ext (fun i => nth i levels []) (consts F l) M LV) in PC. rewrite (evals_ext (fun i => nth i levels []) (consts F l) point M LV) in PC.
    rewrite evals_consts in PC. fold (vb F l M) in PC. rewrite <- PC by exact HB. f_equal.
    apply (list_eq_nth _ _ 0%nat); [now rewrite map_length, LM|]. intros i Hi. rewrite LN in Hi. unfold levels. rewrite map_map, nth_map_seq by auto. cbn [Nat.add].
    unfold consts. now rewrite map_length, HL.
  Qed.

  Lemma vb_length l M : length (vb F l M) = list_sum (map (fun i => length (l i) * 2 ^ i)%nat (seq 0 M)).
  Proof. unfold vb. rewrite values_length. f_equal. apply map_ext. intros i. unfold consts. now rewrite map_length. Qed.

  Lemma vb_more l m k : (forall i, (m <= i)%nat -> l i = []) -> vb F l (m + k) = vb F l m.
  Proof. intros H. unfold vb. apply below_ext. intros i Hi. unfold consts. now rewrite H. Qed.

  Lemma nth_error_map_Ok {X Y} (f : X -> res Y) : forall l ys, map f l = map Ok ys ->
    length ys = length l /\ forall q, (forall y, nth_error ys q = Some y -> exists x, nth_error l q = Some x /\ f x = Ok y) /\
      (forall x, nth_error l q = Some x -> exists y, nth_error ys q = Some y /\ f x = Ok y).
  Proof.
    induction l as [|x l IH]; intros [|y ys] E; try discriminate.
    - split; auto. intros q. split; intros z Ez; destruct q; discriminate.
    - cbn [map] in E. injection E as E1 E2. destruct (IH ys E2) as [L HQ]. split; [cbn; lia|]. intros [|q]; cbn [nth_error].
      + split; intros z Ez; injection Ez as <-; eauto.
      + apply HQ.
  Qed.

  Lemma group_cons (c : piop_claim F) claims v : length (group F (c :: claims) v) = ((if pc_n_vars F c =? v then 1 else 0) + length (group F claims v))%nat.
  Proof. unfold group. cbn [filter]. destruct (_ =? v)%nat; reflexivity. Qed.

  Lemma group_total (claims : list (piop_claim F)) vs : NoDup vs -> (list_sum (map (fun v => length (group F claims v)) vs) <= length claims)%nat.
  Proof.
    intros ND. induction claims as [|c claims IH].
    - clear. induction vs; cbn; auto.
    - assert (H : (list_sum (map (fun v => length (group F (c :: claims) v)) vs) <= list_sum (map (fun v => length (group F claims v)) vs) + 1 /\
        (~ In (pc_n_vars F c) vs -> list_sum (map (fun v => length (group F (c :: claims) v)) vs) = list_sum (map (fun v => length (group F claims v)) vs)))%nat).
      { clear IH. induction vs as [|v vs IH]; [cbn; lia|]. inversion ND as [|? ? NI ND']; subst. destruct (IH ND') as [I1 I2]. cbn [map]. rewrite !list_sum_cons, group_cons.
        destruct (Nat.eqb_spec (pc_n_vars F c) v) as [EV|NE].
        - rewrite <- EV in NI. specialize (I2 NI). split; [lia|]. intros X. exfalso. apply X. left. now symmetry.
        - split; [lia|]. intros X. rewrite I2; auto. intros Y. apply X. now right. }
      cbn [length]. lia.
  Qed.

  Lemma sorted_nodup l : StronglySorted lt l -> NoDup l.
  Proof.
    induction l as [|a l IH]; intros S1; constructor; inversion S1 as [|? ? S2 FA]; subst; auto.
    intros IN. rewrite Forall_forall in FA. specialize (FA a IN). lia.
  Qed.

  Lemma range_below counts v lo hi : range_by_vars (meta_new counts) v = Ok (lo, hi) ->
    (v < length counts)%nat /\ lo = below counts v /\ hi = below counts (S v).
  Proof.
    unfold range_by_vars, meta_new. rewrite meta_fold_spec. cbn [offsets_by_vars n_multilins_by_vars]. intros E.
    destruct (nth_error (map _ _) v) as [st|] eqn:E1; cbn [of_opt rbind] in E; [|discriminate].
    destruct (nth_error counts v) as [ct|] eqn:E2; cbn [of_opt rbind] in E; [|discriminate]. injection E as <- <-.
    assert (L : (v < length counts)%nat) by (apply nth_error_Some; congruence). split; auto.
    apply nth_error_nth with (d := 0%nat) in E1. rewrite nth_map_seq in E1 by auto. split; auto.
    unfold below. rewrite firstn_sum_S. rewrite (nth_error_nth _ _ 0%nat E2). unfold below in E1. lia.
  Qed.


  Lemma flat_map_combine {X Y Z} (g : X * Y -> list Z) (f : X -> list Z) : forall (l : list X) (l' : list Y), length l = length l' ->
    (forall q x y, nth_error l q = Some x -> nth_error l' q = Some y -> g (x, y) = f x) -> flat_map g (combine l l') = flat_map f l.
  Proof.
    induction l as [|x l IH]; intros [|y l'] L H; try discriminate; [reflexivity|]. cbn [combine flat_map]. rewrite (H 0%nat x y eq_refl eq_refl). f_equal.
    apply IH; [now injection L|]. intros q x' y' E1 E2. exact (H (S q) x' y' E1 E2).
  Qed.

  Lemma flat_map_filter_seq {X Z} (g : nat * X -> bool) (f : nat -> list Z) (l : list X) : forall s,
    (forall k x, nth_error l k = Some x -> g ((s + k)%nat, x) = false -> f (s + k)%nat = []) ->
    flat_map (fun vd => f (fst vd)) (filter g (combine (seq s (length l)) l)) = flat_map f (seq s (length l)).
  Proof.
    induction l as [|x l IH]; intros s H; [reflexivity|]. cbn [length seq combine filter flat_map].
    assert (R : flat_map (fun vd => f (fst vd)) (filter g (combine (seq (S s) (length l)) l)) = flat_map f (seq (S s) (length l))).
    { apply IH. intros k y E G. specialize (H (S k) y E). replace (s + S k)%nat with (S s + k)%nat in H by lia. auto. }
    destruct (g (s, x)) eqn:G; cbn [flat_map fst]; rewrite R; [reflexivity|]. specialize (H 0%nat x eq_refl). rewrite Nat.add_0_r in H. now rewrite (H G).
  Qed.

  (* ---------------------------------------------------------------- *)
  (** * Soundness *)
  Section Main.
    Variables (arities : list nat) (dl : nat) (fri : list (list F) -> list F -> vproto F F).
    Variables (counts : list nat) (ts : list (transparent F)) (claims : list (piop_claim F)) (W : nat -> F) (A : nat -> nat -> F).
    Hypothesis TS : forall i t, nth_error ts i = Some t -> transparent_is t (A i).
    Let m := meta_new counts.
    Let N := total_vars m.

    Definition tables (vd : nat * claim_desc F) : list (nat -> F) :=
      map (fun j => committed_multilin counts W (fst vd) (c_lo (snd vd) + j)) (seq 0 (n_committed (snd vd))) ++
      map (fun j => A (t_lo (snd vd) + j)%nat) (seq 0 (n_transparent (snd vd))).

    Section Descs.
      Variables (ds : list (claim_desc F)) (cls : list (claim F)).
      Hypothesis EDS : make_sumcheck_claim_descs F m (map tr_n ts) claims = Ok ds.
      Hypothesis ECL : collect_res (map desc_claim (non_empty ds)) = Ok cls.
      Let ne := non_empty ds.

      Lemma ne_desc v d : In (v, d) ne ->
        (v < length counts)%nat /\ c_lo d = below counts v /\ c_hi d = below counts (S v) /\ n_committed d = nth v counts 0%nat /\ (0 < nth v counts 0)%nat /\
        sums F d = map (localized F (c_lo d) (c_hi d) (t_lo d) (t_hi d)) (group F claims v) /\
        forall i, (t_lo d <= i < t_hi d)%nat <-> nth_error (map tr_n ts) i = Some v.
      Proof.
        intros IN. apply non_empty_in in IN as [E L]. destruct (descs_inv counts (map tr_n ts) claims ds EDS) as (_ & _ & HD).
        destruct (HD v) as (lo & hi & tlo & thi & E' & H1 & H2 & H3); [apply nth_error_Some; congruence|].
        rewrite E in E'. injection E' as ->. cbn [MetaModel.c_lo MetaModel.c_hi MetaModel.t_lo MetaModel.t_hi sums] in *. unfold n_committed. cbn [MetaModel.c_lo MetaModel.c_hi].
        destruct (Nat.lt_ge_cases v (length counts)) as [LV|GV]; [|specialize (H2 GV); lia]. destruct (H1 LV) as [-> ->].
        assert (B : below counts (S v) = (below counts v + nth v counts 0)%nat) by (unfold below; apply firstn_sum_S). rewrite B in *.
        split; [exact LV|]. split; [reflexivity|]. split; [reflexivity|]. split; [lia|]. split; [lia|]. split; [reflexivity|exact H3].
      Qed.

      Lemma counts_ds v : nth v (map n_committed ds) 0%nat = nth v counts 0%nat.
      Proof.
        destruct (descs_inv counts (map tr_n ts) claims ds EDS) as (_ & LD & HD). destruct (Nat.lt_ge_cases v (length ds)) as [LV|GV].
        - destruct (HD v LV) as (lo & hi & tlo & thi & E' & H1 & H2 & H3). erewrite nth_error_nth by (rewrite nth_error_map, E'; reflexivity).
          unfold n_committed. cbn [MetaModel.c_lo MetaModel.c_hi].
          destruct (Nat.lt_ge_cases v (length counts)) as [LC|GC].
          + destruct (H1 LC) as [-> ->]. unfold below. rewrite firstn_sum_S. lia.
          + rewrite (H2 GC), Nat.sub_diag. symmetry. apply nth_overflow. lia.
        - rewrite !nth_overflow; [reflexivity| |now rewrite map_length]. unfold max_n_vars, m, meta_new in LD. rewrite meta_fold_spec in LD. cbn [n_multilins_by_vars] in LD. lia.
      Qed.

      Lemma level_in v : (0 < nth v counts 0)%nat -> exists d, In (v, d) ne.
      Proof.
        intros H. pose proof (counts_ds v) as E. destruct (nth_error ds v) as [d|] eqn:ED.
        - exists d. apply non_empty_in. split; auto. erewrite nth_error_nth in E by (rewrite nth_error_map, ED; reflexivity). unfold n_committed in E. lia.
        - apply nth_error_None in ED. rewrite nth_overflow in E by (rewrite map_length; auto). lia.
      Qed.

      Lemma cls_ne : length cls = length ne /\ forall q, (forall c, nth_error cls q = Some c -> exists vd, nth_error ne q = Some vd /\ desc_claim vd = Ok c) /\
        (forall vd, nth_error ne q = Some vd -> exists c, nth_error cls q = Some c /\ desc_claim vd = Ok c).
      Proof. exact (nth_error_map_Ok desc_claim ne cls (collect_inv _ _ ECL)). Qed.

      Definition insts : list (inst F) := combine cls (map tables ne).

      Lemma insts_fst : map fst insts = cls.
      Proof.
        destruct cls_ne as [L _]. unfold insts. assert (L' : length cls = length (map tables ne)) by now rewrite map_length.
        revert L'. clear. generalize (map tables ne) as l. induction cls as [|c cs IH]; intros [|x l] L; cbn in *; try discriminate; auto. f_equal. apply IH. lia.
      Qed.

      Lemma insts_nth q i : nth_error insts q = Some i -> exists vd, nth_error ne q = Some vd /\ desc_claim vd = Ok (fst i) /\ snd i = tables vd.
      Proof.
        intros E. destruct cls_ne as [L HQ]. assert (E1 : nth_error cls q = Some (fst i) /\ nth_error (map tables ne) q = Some (snd i)).
        { revert E. unfold insts. clear. generalize (map tables ne) as l. revert q. induction cls as [|c cs IH]; intros [|q] [|x l] E; cbn in *; try discriminate; [injection E as <-; auto|eauto]. }
        destruct E1 as [E1 E2]. destruct (HQ q) as [HQ1 _]. destruct (HQ1 _ E1) as (vd & EV & ED). exists vd. repeat split; auto.
        rewrite nth_error_map, EV in E2. cbn in E2. now injection E2 as <-.
      Qed.

      Lemma insts_in i : In i insts -> exists vd, In vd ne /\ desc_claim vd = Ok (fst i) /\ snd i = tables vd.
      Proof. intros IN. apply In_nth_error in IN as [q E]. destruct (insts_nth q i E) as (vd & EV & H). exists vd. split; auto. eapply nth_error_In; eauto. Qed.

      Lemma sums_in (i : inst F) vd : desc_claim vd = Ok (fst i) -> forall cs, In cs (cl_sums (fst i)) -> exists ps, In ps (sums F (snd vd)) /\ composite ps = Ok cs.
      Proof.
        intros E cs IN. destruct (desc_claim_ok _ _ E) as (_ & _ & EM). apply (in_map Ok) in IN. rewrite <- EM in IN. apply in_map_iff in IN as (ps & EP & IN). eauto.
      Qed.

      Lemma insts_ok : Forall inst_ok insts.
      Proof.
        rewrite Forall_forall. intros i IN. destruct (insts_in i IN) as ([v d] & IV & ED & ET). destruct (desc_claim_ok _ _ ED) as (E1 & E2 & EM). cbn [fst snd] in *.
        split; [rewrite ET, E2; unfold tables; cbn [fst snd]; now rewrite app_length, !map_length, !seq_length|].
        intros cs IC. destruct (sums_in i _ ED cs IC) as (ps & IP & EC). destruct (composite_ok ps cs EC) as (K1 & K2 & _). split; [exact K1|]. rewrite K2, E2.
        destruct (ne_desc v d IV) as (_ & _ & _ & _ & _ & ES & _). cbn [snd] in IP. rewrite ES in IP. apply in_map_iff in IP as (c & <- & _). reflexivity.
      Qed.

      Lemma degree_two i : In i insts -> (max_individual_degree (fst i) <= 2)%nat /\ (cl_sums (fst i) = [] \/ (1 <= max_individual_degree (fst i))%nat).
      Proof.
        intros IN. destruct (insts_in i IN) as (vd & IV & ED & ET). unfold max_individual_degree.
        assert (D : forall cs, In cs (cl_sums (fst i)) -> c_deg (fst cs) = 2%nat).
        { intros cs IC. destruct (sums_in i _ ED cs IC) as (ps & IP & EC). apply (composite_ok ps cs EC). }
        split.
        - revert D. induction (cl_sums (fst i)) as [|cs l IH]; intros D; cbn [map fold_right]; [lia|]. rewrite (D cs) by now left. specialize (IH (fun c H => D c (or_intror H))). lia.
        - destruct (cl_sums (fst i)) as [|cs l]; [now left|right]. cbn [map fold_right]. rewrite (D cs) by now left. lia.
      Qed.

      Lemma cls_sorted : map cl_n cls = map fst ne.
      Proof.
        destruct cls_ne as [L HQ]. apply (list_eq_nth _ _ 0%nat); [now rewrite !map_length|]. intros q Hq. rewrite map_length in Hq.
        destruct (nth_error cls q) as [c|] eqn:E; [|apply nth_error_None in E; lia]. destruct (HQ q) as [HQ1 _]. destruct (HQ1 c E) as (vd & EV & ED).
        erewrite (nth_error_nth (map _ cls)) by (apply map_nth_error; exact E). erewrite (nth_error_nth (map _ ne)) by (apply map_nth_error; exact EV). apply (desc_claim_ok _ _ ED).
      Qed.

      Lemma elems_pos v : (0 < nth v counts 0)%nat -> (2 ^ v <= batch_elems counts)%nat.
      Proof.
        intros H. unfold batch_elems. assert (LV : (v < length counts)%nat) by (destruct (Nat.lt_ge_cases v (length counts)) as [|G]; auto; rewrite nth_overflow in H; lia).
        assert (IN : In (nth v counts 0 * 2 ^ v)%nat (map (fun v => nth v counts 0 * 2 ^ v)%nat (seq 0 (length counts)))).
        { apply in_map_iff. exists v. split; auto. apply in_seq. lia. }
        revert IN. generalize (map (fun v => nth v counts 0 * 2 ^ v)%nat (seq 0 (length counts))). intros l. induction l as [|a l IH]; intros []; rewrite list_sum_cons; [subst a; nia|]. specialize (IH H0). lia.
      Qed.

      Lemma vars_bound v : (0 < nth v counts 0)%nat -> (v <= N)%nat.
      Proof.
        intros H. pose proof (elems_pos v H) as H1. destruct (commit_meta_correct counts) as (_ & _ & _ & _ & H2 & _). fold m in H2. fold N in H2.
        apply (Nat.pow_le_mono_r_iff 2); lia.
      Qed.

      Lemma insts_bounds : (max_vars insts <= N /\ max_degree insts <= 2 /\ n_composites insts <= length claims)%nat.
      Proof.
        repeat split.
        - unfold max_vars. rewrite <- (map_map (@fst (claim F) (list (nat -> F))) cl_n), insts_fst, cls_sorted.
          assert (H : forall v, In v (map fst ne) -> (v <= N)%nat).
          { intros v IN. apply in_map_iff in IN as ([v' d] & <- & IN). apply vars_bound. apply (ne_desc v' d IN). }
          revert H. induction (map fst ne) as [|v l IH]; intros H; cbn [fold_right]; [lia|]. pose proof (H v (or_introl eq_refl)). specialize (IH (fun u Hu => H u (or_intror Hu))). lia.
        - unfold max_degree. assert (H : forall i, In i insts -> (max_individual_degree (fst i) <= 2)%nat) by (intros i IN; apply (degree_two i IN)).
          revert H. induction insts as [|v l IH]; intros H; cbn [map fold_right]; [lia|]. pose proof (H v (or_introl eq_refl)). specialize (IH (fun u Hu => H u (or_intror Hu))). lia.
        - unfold n_composites. rewrite <- (map_map (@fst (claim F) (list (nat -> F))) (fun c => length (cl_sums c))), insts_fst.
          etransitivity; [|apply (group_total claims (map fst ne)); apply sorted_nodup; apply non_empty_sorted]. apply Nat.eq_le_incl. f_equal.
          destruct cls_ne as [L HQ]. apply (list_eq_nth _ _ 0%nat); [now rewrite !map_length|]. intros q Hq. rewrite map_length in Hq.
          destruct (nth_error cls q) as [c|] eqn:E; [|apply nth_error_None in E; lia]. destruct (HQ q) as [HQ1 _]. destruct (HQ1 c E) as ([v d] & EV & ED).
          rewrite map_map.
          erewrite (nth_error_nth (map _ cls)) by (apply map_nth_error; exact E). erewrite (nth_error_nth (map _ ne)) by (apply map_nth_error; exact EV). cbn [fst].
          destruct (desc_claim_ok _ _ ED) as (_ & _ & EM). assert (X := f_equal (@length _) EM). rewrite !map_length in X. rewrite <- X.
          destruct (ne_desc v d (nth_error_In _ _ EV)) as (_ & _ & _ & _ & _ & ES & _). cbn [snd]. now rewrite ES, map_length.
      Qed.

      (** A wrong claim makes one of the batched claims wrong. *)
      Lemma bad_claim c0 : In c0 claims -> ~ piop_claim_true counts W A c0 -> exists i, In i insts /\ ~ claim_true i.
      Proof.
        intros IN0 BAD. destruct (descs_inv counts (map tr_n ts) claims ds EDS) as (ACC & _ & _). rewrite Forall_forall in ACC. destruct (ACC c0 IN0) as [(lo & hi & ER & LC) ET].
        apply range_below in ER as (LV & -> & ->). set (v := pc_n_vars F c0) in *.
        assert (POS : (0 < nth v counts 0)%nat) by (unfold below in LC; rewrite firstn_sum_S in LC; lia).
        destruct (level_in v POS) as [d IN]. destruct (ne_desc v d IN) as (_ & D1 & D2 & D3 & _ & D4 & D5).
        apply D5 in ET as LT. apply In_nth_error in IN as [q EQ]. destruct cls_ne as [L HQ]. destruct (HQ q) as [_ HQ2]. destruct (HQ2 _ EQ) as (c & EC & ED).
        assert (EI : nth_error insts q = Some (c, tables (v, d))).
        { unfold insts. clear -EC EQ. revert q EC EQ. generalize ne as l. induction cls as [|x l' IH]; intros [|y l] [|q] E1 E2; cbn [nth_error combine map] in *; try discriminate; [injection E1 as ->; injection E2 as ->; reflexivity|auto]. }
        exists (c, tables (v, d)). split; [eapply nth_error_In; eauto|]. intros CT. apply BAD.
        destruct (desc_claim_ok _ _ ED) as (E1 & E2 & EM). cbn [fst snd] in *.
        assert (IP : In (composite (localized F (c_lo d) (c_hi d) (t_lo d) (t_hi d) c0)) (map composite (sums F d))).
        { apply in_map. rewrite D4. apply in_map. unfold group. apply filter_In. split; auto. apply Nat.eqb_refl. }
        rewrite EM in IP. apply in_map_iff in IP as (cs & EP & IC). symmetry in EP. destruct (composite_ok _ _ EP) as (_ & _ & _ & K4 & K5). cbn [localized ps_sum ps_n ps_left ps_right] in *.
        specialize (CT cs IC). cbn [fst snd] in CT. unfold piop_claim_true. fold v. rewrite <- K4, CT, E1. unfold true_sum. apply sumn_ext. intros x Hx.
        rewrite K5 by (rewrite map_length; unfold tables; cbn [fst snd]; rewrite app_length, !map_length, !seq_length; reflexivity).
        cbn [val]. unfold tables. cbn [fst snd]. rewrite !map_app, !map_map. unfold n_committed, n_transparent.
        rewrite app_nth1 by (rewrite map_length, seq_length; lia). rewrite app_nth2 by (rewrite map_length, seq_length; lia). rewrite map_length, seq_length.
        rewrite !nth_map_seq by lia. rewrite (Nat.add_comm (c_hi d - c_lo d) (pc_transparent F c0 - t_lo d)), Nat.add_sub.
        replace (c_lo d + (pc_committed F c0 - c_lo d))%nat with (pc_committed F c0) by lia. replace (t_lo d + (pc_transparent F c0 - t_lo d))%nat with (pc_transparent F c0) by lia. reflexivity.
      Qed.

      Let ncs := map (fun vd => n_committed (snd vd)) ne.

      Lemma fits : (batch_elems counts <= 2 ^ N)%nat.
      Proof. apply (commit_meta_correct counts). Qed.
      Lemma cls_st : StronglySorted lt (map cl_n cls).
      Proof. rewrite cls_sorted. apply non_empty_sorted. Qed.
      Lemma ncs_len : length ncs = length cls.
      Proof. unfold ncs. rewrite map_length. symmetry. apply cls_ne. Qed.
      Lemma ncs_ok q c : nth_error cls q = Some c -> nth q ncs 0%nat = nth (cl_n c) counts 0%nat /\ (nth q ncs 0 <= cl_m c)%nat.
      Proof.
        intros E. destruct cls_ne as [_ HQ]. destruct (HQ q) as [HQ1 _]. destruct (HQ1 c E) as ([v d] & EV & ED). destruct (desc_claim_ok _ _ ED) as (E1 & E2 & _). cbn [fst snd] in *.
        unfold ncs. erewrite nth_error_nth by (apply map_nth_error; exact EV). cbn [snd]. rewrite E1, E2. destruct (ne_desc v d (nth_error_In _ _ EV)) as (_ & _ & _ & D & _). split; [exact D|lia].
      Qed.
      Lemma cls_zero v : ~ In v (map cl_n cls) -> nth v counts 0%nat = 0%nat.
      Proof.
        intros NI. destruct (Nat.eq_0_gt_0_cases (nth v counts 0%nat)) as [|P]; auto. exfalso. destruct (level_in v P) as [d IN]. apply NI. rewrite cls_sorted.
        apply (in_map fst) in IN. exact IN.
      Qed.

      Section Run.
        Variables (chal : list F) (evals : list (list F)) (committed : list F) (value : F).
        Hypothesis HC : length chal = N.
        Hypothesis HE : length evals = length cls.
        Hypothesis HL : lens_ok F cls evals.
        Hypothesis HV : verify_transparent_evals ne evals ts chal = Ok committed.

        Lemma right_truthful : right_values F cls ncs counts W evals chal -> truthful_front HighToLow insts (chal, evals).
        Proof.
          intros R. unfold truthful_front. cbn [fst snd prefix_point]. destruct cls_ne as [LC HQ].
          destruct (transparent_evals_ok ts chal ne evals committed HV ltac:(congruence)) as [_ CHK].
          assert (LI : length insts = length cls) by (rewrite <- insts_fst; now rewrite map_length).
          apply (list_eq_nth _ _ []); [now rewrite map_length, LI|]. intros q Hq.
          destruct (nth_error evals q) as [e|] eqn:Ee; [|apply nth_error_None in Ee; lia]. rewrite (nth_error_nth _ _ _ Ee).
          destruct (nth_error insts q) as [i|] eqn:Ei; [|apply nth_error_None in Ei; lia]. erewrite nth_error_nth by (apply map_nth_error; exact Ei).
          destruct (insts_nth q i Ei) as ([v d] & EV & ED & ET). destruct (desc_claim_ok _ _ ED) as (E1 & E2 & _). cbn [fst snd] in *.
          pose proof (nth_error_In _ _ EV) as IN. destruct (ne_desc v d IN) as (D0 & D1 & D2 & D3 & D3' & _ & D5).
          assert (EC : nth_error cls q = Some (fst i)) by (rewrite <- insts_fst; now apply map_nth_error).
          assert (INC : In ((v, d), e) (combine ne evals)).
          { clear -EV Ee. revert q evals EV Ee. induction ne as [|x l IH]; intros [|q] [|y l'] E1 E2; try discriminate; cbn in *; [left; congruence|right; eauto]. }
          destruct (CHK v d e INC) as (LE & LT & CT). rewrite E1. assert (VN : (v <= N)%nat) by now apply vars_bound.
          assert (LF : length (firstn v chal) = v) by (rewrite firstn_length; lia).
          unfold mvals. rewrite ET. unfold tables. cbn [fst snd]. rewrite map_app, !map_map.
          apply (list_eq_nth _ _ 0); [rewrite app_length, !map_length, !seq_length; exact LE|]. intros j Hj.
          destruct (Nat.lt_ge_cases j (n_committed d)) as [LJ|GJ].
          - rewrite app_nth1 by (rewrite map_length, seq_length; auto). rewrite nth_map_seq by auto.
            assert (NQ : nth q ncs 0%nat = n_committed d) by (unfold ncs; erewrite nth_error_nth by (apply map_nth_error; exact EV); reflexivity).
            specialize (R q (fst i) e EC Ee (n_committed d - 1 - j)%nat). rewrite NQ, E1 in R. specialize (R ltac:(lia)).
            assert (LFE : length (firstn (n_committed d) e) = n_committed d) by (rewrite firstn_length; lia).
            rewrite rev_nth in R by (rewrite LFE; lia). rewrite LFE in R. replace (n_committed d - S (n_committed d - 1 - j))%nat with j in R by lia.
            rewrite <- (firstn_skipn (n_committed d) e) at 1. rewrite app_nth1 by (rewrite LFE; auto). rewrite R.
            rewrite <- (mle_reverse F (firstn v chal)). rewrite LF. apply (mle_ext F). intros x Hx. unfold committed_multilin. f_equal. f_equal. f_equal. f_equal.
            unfold n_committed in *. lia.
          - rewrite app_nth2 by (rewrite map_length, seq_length; auto). rewrite map_length, seq_length. rewrite nth_map_seq by lia.
            assert (ND : nth j e 0 = nth (j - n_committed d) (skipn (n_committed d) e) 0).
            { rewrite <- (firstn_skipn (n_committed d) e) at 1. rewrite app_nth2; rewrite firstn_length; [|lia]. f_equal. lia. }
            rewrite ND. set (sl := firstn (n_transparent d) (skipn (t_lo d) ts)) in *.
            assert (LS : length sl = n_transparent d) by (unfold sl, n_transparent; rewrite firstn_length, skipn_length; lia).
            assert (SL : forall k t, nth_error sl k = Some t -> (k < n_transparent d)%nat /\ nth_error ts (t_lo d + k) = Some t).
            { intros k t Ek. assert (K : (k < n_transparent d)%nat) by (rewrite <- LS; apply nth_error_Some; congruence). split; auto. unfold sl in Ek.
              rewrite nth_error_firstn, nth_error_skipn in Ek. destruct (Nat.ltb_spec k (n_transparent d)); [exact Ek|lia]. }
            destruct (nth_error sl (j - n_committed d)) as [t|] eqn:Et; [|apply nth_error_None in Et; lia].
            apply (check_transparents_ok v chal (skipn (n_committed d) e) sl CT) with (t := t); auto.
            + rewrite skipn_length, LS. lia.
            + intros t' IT. apply In_nth_error in IT as [k Ek]. destruct (SL k t' Ek) as [K1 K2]. assert (X : nth_error (map tr_n ts) (t_lo d + k) = Some v) by (apply D5; unfold n_transparent in K1; lia).
              rewrite nth_error_map, K2 in X. cbn in X. congruence.
            + apply TS. apply (SL _ _ Et).
        Qed.

        Let l := lev F cls ncs evals.

        Lemma l_length v : length (l v) = nth v counts 0%nat.
        Proof.
          apply (lev_length F cls ncs counts N fits cls_st ncs_len ncs_ok cls_zero evals v HL). intros q c E _. rewrite HE. apply nth_error_Some. congruence.
        Qed.

        Lemma committed_flat : rev committed = flat_below l (length ds).
        Proof.
          destruct cls_ne as [LC HQ]. destruct (transparent_evals_ok ts chal ne evals committed HV ltac:(congruence)) as [-> _]. rewrite <- flat_rev. f_equal.
          rewrite (flat_map_combine _ (fun vd => rev (l (fst vd))) ne evals) by (try congruence; intros q [v d] e EV Ee; cbn [fst snd];
            destruct (HQ q) as [_ HQ2]; destruct (HQ2 _ EV) as (c & EC & ED); destruct (desc_claim_ok _ _ ED) as (E1 & _); cbn [fst] in E1;
            unfold l; rewrite (proj1 (lev_find F cls ncs counts N fits cls_st ncs_len evals v HL) q c e EC Ee E1), rev_involutive;
            unfold ncs; erewrite nth_error_nth by (apply map_nth_error; exact EV); reflexivity).
          unfold ne, non_empty. apply (flat_map_filter_seq _ (fun v => rev (l v))). intros k x EK G. cbn [Nat.add snd] in *.
          destruct (l k) as [|y r] eqn:EL; [reflexivity|]. exfalso. pose proof (l_length k) as LL. rewrite EL, <- (counts_ds k) in LL.
          erewrite nth_error_nth in LL by (apply map_nth_error; exact EK). unfold n_committed in LL. cbn [length] in LL. apply Nat.ltb_ge in G. lia.
        Qed.

        Lemma value_flat c0 : In c0 claims -> evaluate_piecewise_multilinear chal (map n_committed ds) (rev committed) = Ok (mle (fun x => nth x (vb F l (S N)) 0) chal).
        Proof.
          intros IN0. rewrite committed_flat. destruct (descs_inv counts (map tr_n ts) claims ds EDS) as (ACC & LD & _).
          rewrite Forall_forall in ACC. destruct (ACC c0 IN0) as [(lo & hi & ER & LC) _]. apply range_below in ER as (LV & -> & ->). set (v := pc_n_vars F c0) in *.
          assert (POS : (0 < nth v counts 0)%nat) by (unfold below in LC; rewrite firstn_sum_S in LC; lia).
          assert (LM : length ds = length counts).
          { rewrite LD. unfold max_n_vars, m, meta_new. rewrite meta_fold_spec. cbn [n_multilins_by_vars]. lia. }
          assert (EB : length (vb F l (length ds)) = batch_elems counts).
          { rewrite vb_length, LM. unfold batch_elems. f_equal. apply map_ext. intros i. now rewrite l_length. }
          rewrite (piecewise_consts l (map n_committed ds) chal (length ds)).
          - f_equal. apply (mle_ext F). intros x Hx. f_equal.
            destruct (Nat.le_ge_cases (length ds) (S N)) as [LE|GE].
            + replace (S N) with (length ds + (S N - length ds))%nat by lia. symmetry. apply vb_more. intros i Hi. pose proof (l_length i) as X. rewrite nth_overflow in X by lia. now destruct (l i).
            + replace (length ds) with (S N + (length ds - S N))%nat by lia. apply vb_more. intros i Hi. pose proof (l_length i) as X. destruct (l i); [reflexivity|].
              cbn [length] in X. pose proof (vars_bound i ltac:(lia)). lia.
          - now rewrite map_length.
          - intros i Hi. now rewrite l_length, counts_ds.
          - rewrite EB, HC. split; [|apply fits]. pose proof (elems_pos v POS). pose proof (Nat.pow_nonzero 2 v ltac:(lia)). lia.
        Qed.
      End Run.
    End Descs.

    (** If a claim is wrong then, except for few challenges, the verifier rejects or the value that FRI vouches for is not
        the value of the committed message at the challenges. *)
    Theorem piop_sound : (exists c, In c claims /\ ~ piop_claim_true counts W A c) ->
      sound (fun out => snd out <> mle W (fst out)) (length claims + 3 * N) (piop_verify arities dl fri m ts claims).
    Proof.
      intros (c0 & IN0 & BAD). unfold piop_verify. apply sound_bind0. intros ds EDS. apply sound_bind0. intros cls ECL. fold N.
      destruct (insts_bounds ds cls EDS ECL) as (B1 & B2 & B3).
      pose proof (interleaved_claims_sound F arities dl fri HighToLow (insts ds cls) (insts_ok ds cls EDS ECL)) as CS. rewrite (insts_fst ds cls ECL) in CS.
      assert (SS : StronglySorted le (map (fun i : inst F => cl_n (fst i)) (insts ds cls))).
      { rewrite <- (map_map (@fst (claim F) (list (nat -> F))) cl_n), (insts_fst ds cls ECL). pose proof (cls_st ds cls ECL) as S1. revert S1. clear.
        induction (map cl_n cls) as [|a l IH]; intros S1; constructor; inversion S1 as [|? ? S2 FA]; subst; auto. eapply Forall_impl; [|exact FA]. cbn. intros; lia. }
      assert (DG : Forall (fun i : inst F => cl_sums (fst i) = [] \/ (1 <= max_individual_degree (fst i))%nat) (insts ds cls)).
      { rewrite Forall_forall. intros i IN. apply (degree_two ds cls ECL i IN). }
      specialize (CS SS DG N B1 (bad_claim ds cls EDS ECL c0 IN0 BAD)).
      pose proof (interleaved_values_sound F arities dl fri cls _ counts W N fits (cls_st ds cls ECL) (ncs_len ds cls ECL) (ncs_ok ds cls EDS ECL) (cls_zero ds cls EDS ECL)) as VS.
      pose proof (sound_and F _ _ _ _ CS _ VS) as BOTH.
      apply (sound_mono F (fun out => snd out <> mle W (fst out)) _ (n_composites (insts ds cls) + max_vars (insts ds cls) * max_degree (insts ds cls) + N + 0) _ _); [|nia|intros a Ha; exact Ha].
      apply (sound_bind F _ _ _ 0 _ _ BOTH). clear BOTH VS CS. intros [[chal evals] final] (NT & HC & HE & HL & HR). cbn [fst snd] in *.
      apply sound_bind0. intros committed HV. apply sound_bind0. intros value EV. destruct (feqb_spec F value final) as [->|]; cbn [negb]; [|constructor]. constructor. cbn [fst snd].
      destruct HR as [R|MIS]; [exfalso; apply NT; eapply right_truthful; eauto|].
      rewrite (value_flat ds cls EDS ECL chal evals committed HC HE HL HV c0 IN0) in EV. injection EV as <-. intros X. apply MIS. now symmetry.
    Qed.
  End Main.
End Props.

(** C75: counted over the challenges.  Whatever the prover sends, of [|S|^k] choices of challenges from a set [S] at most the
    fraction [(length claims + 3 * total_vars) / |S|] lets the verifier of a wrong claim accept while the value obtained from
    FRI is that of the committed message. *)
Theorem piop_soundness (F : field) arities dl fri counts (ts : list (transparent F)) claims W A :
  (forall i t, nth_error ts i = Some t -> transparent_is F t (A i)) ->
  (exists c, In c claims /\ ~ piop_claim_true F counts W A c) ->
  forall (strategy : list F -> nat -> list F) (S : list F) (k : nat) (L : list (list F)),
    NoDup S -> NoDup L ->
    (forall cs, In cs L -> length cs = k /\ incl cs S /\ exists out,
       vplay (piop_verify arities dl fri (meta_new counts) ts claims) strategy [] 0 cs = Ok out /\ snd out = mle W (fst out)) ->
    (length L * length S <= (length claims + 3 * total_vars (meta_new counts)) * length S ^ k)%nat.
Proof.
  intros TS BAD. apply (of_sound F (fun out : list F * F => snd out = mle W (fst out))). exact (piop_sound F arities dl fri counts ts claims W A TS BAD).
Qed.

(** Hypotheses: one committed multilinear with the values 2, 5 on one variable, a transparent one with the values 3, 7, FRI
    vouching for the message.  The sum of products is claimed as 15; claimed right, the verifier accepts an honest prover. *)
Definition ex_counts : list nat := [0; 1]%nat.
Definition ex_W : nat -> X16 := fun x => nth x (els [2; 5]%N) f0.
Definition ex_A : nat -> nat -> X16 := fun _ x => nth x (els [3; 7]%N) f0.
Definition ex_ts : list (transparent X16) := [mkTransparent 1 (fun p => Ok (mle (ex_A 0) p))].
Definition ex_claim (s : X16) : list (piop_claim X16) := [mkPiopClaim X16 1 0 0 s].
Definition ex_fri : list (list X16) -> list X16 -> vproto X16 X16 := fun _ chal => VRet (Ok (mle ex_W chal)).
Definition ex_sum : X16 := fadd (fmul (el 2) (el 3)) (fmul (el 5) (el 7)).
Definition ex_prover (hist : list X16) (sent : nat) : list X16 :=
  match sent, hist with
  | O, _ => [fmul (el 2) (el 3); fadd (fmul (el 2) (fadd (el 7) (el 3))) (fmul (el 3) (fadd (el 5) (el 2)))]
  | _, [_; r] => [mle ex_W [r]; mle (ex_A 0) [r]]
  | _, _ => []
  end.
Definition ex_run (s : X16) : option (list N * N) :=
  match vplay (piop_verify [] 0 ex_fri (meta_new ex_counts) ex_ts (ex_claim s)) ex_prover [] 0 (els [1; 6]%N) with
  | Ok out => Some (map bits (fst out), bits (snd out))
  | _ => None
  end.

Fact piop_soundness_ex :
  (forall i t, nth_error ex_ts i = Some t -> transparent_is X16 t (ex_A i)) /\
  (exists c, In c (ex_claim (el 15)) /\ ~ piop_claim_true X16 ex_counts ex_W ex_A c) /\
  ex_run ex_sum = Some ([6], 14)%N /\ ex_run (el 15) = None.
Proof.
  split; [|split; [|split; vm_compute; reflexivity]].
  - intros [|i] t E; [|destruct i; discriminate]. injection E as <-. intros p _. reflexivity.
  - eexists. split; [now left|]. vm_compute. discriminate.
Qed.

(** The FRI verifier is called with one challenge per variable and with one commitment of [dl] elements per fold whose rounds are over
    (verify.rs 424-453): the number of commitments is that of the prefixes of the arities that fit. *)
Fixpoint folds_in (n : nat) (arities : list nat) : nat :=
  match arities with [] => 0 | a :: ars => if a <=? n then S (folds_in (n - a) ars) else 0 end%nat.

Section Commitments.
  Variable F : field.
  Variables (arities : list nat) (dl : nat) (fri : list (list F) -> list F -> vproto F F).

  Lemma any_true {A} (p : vproto F A) : sound (fun _ => True) 0 p.
  Proof. induction p as [[a| |]|n k IH|k IH]; try (constructor; auto; fail). apply (sound_sample F _ 0 0 (fun _ => false)); auto. intros [|x l] _ H; cbn; auto. specialize (H x (or_introl eq_refl)). discriminate. Qed.

  Lemma interleaved_comms n : forall round_no next ars (v : bverifier F) chal evals comms, (forall a, In a ars -> 0 < a)%nat -> (next = None -> ars = []) ->
    (forall r, next = Some r -> round_no < r)%nat ->
    sound (fun out => let '(_, chal', _, comms') := out in length chal' = (length chal + n)%nat /\
        length comms' = (length comms + match next with None => 0 | Some r => folds_in n ((r - round_no) :: ars) end)%nat /\ (Forall (fun c => length c = dl) comms -> Forall (fun c => length c = dl) comms'))
      0 (interleaved dl n round_no next ars v chal evals comms).
  Proof.
    induction n as [|n IH]; intros round_no next ars v chal evals comms POS NX LT; cbn [interleaved].
    - constructor. split; [lia|]. split; [|auto]. destruct next as [r|]; [|lia]. specialize (LT r eq_refl). cbn [folds_in]. destruct (Nat.leb_spec (r - round_no) 0); lia.
    - apply (sound_bind F (fun _ => True) _ 0 0); [apply any_true|]. intros [v1 evals1] _. apply (sound_bind F (fun _ => True) _ 0 0); [apply any_true|]. intros v2 _.
      apply (sound_bind F (fun _ => True) _ 0 0); [apply any_true|]. intros c _. apply sound_bind0. intros v3 _.
      destruct next as [r|].
      + specialize (LT r eq_refl). destruct (Nat.eqb_spec r (round_no + 1)) as [->|NE].
        * apply sound_bind_read. intros comm HL. eapply (sound_mono F); [apply IH| |].
          -- intros a Ha. apply POS. destruct ars; [destruct Ha|now right].
          -- destruct ars; [auto|discriminate].
          -- intros r E. destruct ars as [|a ars]; [discriminate|]. injection E as <-. specialize (POS a (or_introl eq_refl)). lia.
          -- lia.
          -- intros [[[v' chal'] evals'] comms'] (H1 & H2 & H3). rewrite app_length in H1, H2. cbn [length] in *. split; [lia|]. split.
             ++ rewrite H2. replace (round_no + 1 - round_no)%nat with 1%nat by lia. cbn [folds_in Nat.leb]. replace (S n - 1)%nat with n by lia. destruct ars as [|a ars]; cbn [tl folds_in]; [lia|].
                replace (round_no + 1 + a - S round_no)%nat with a by lia. destruct (a <=? n); lia.
             ++ intros FA. apply H3, Forall_app. auto.
        * eapply (sound_mono F); [apply IH; auto| |].
          -- intros r' E. injection E as <-. lia.
          -- lia.
          -- intros [[[v' chal'] evals'] comms'] (H1 & H2 & H3). rewrite app_length in H1. cbn [length] in *. split; [lia|]. split; [|auto]. rewrite H2. cbn [folds_in].
             replace (r - round_no)%nat with (S (r - S round_no)) by lia. cbn [Nat.leb Nat.sub]. reflexivity.
      + eapply (sound_mono F); [apply IH; auto; discriminate|lia|]. intros [[[v' chal'] evals'] comms'] (H1 & H2 & H3). rewrite app_length in H1. cbn [length] in *. split; [lia|auto].
  Qed.

  Theorem fri_commitments n (claims : list (claim F)) (good : F -> Prop) : (forall a, In a arities -> 0 < a)%nat ->
    (forall comms chal, length chal = n -> length comms = folds_in n arities -> Forall (fun c => length c = dl) comms -> sound good 0 (fri comms chal)) ->
    sound (fun out => good (snd out)) 0 (verify_interleaved arities dl fri n claims).
  Proof.
    intros POS HF. unfold verify_interleaved. apply (sound_bind F (fun _ => True) _ 0 0); [apply any_true|]. intros v _. eapply (sound_bind F _ _ 0 0); [apply interleaved_comms|].
    - intros a Ha. apply POS. destruct arities; [destruct Ha|now right].
    - destruct arities; [auto|discriminate].
    - intros r E. destruct arities as [|a ars]; [discriminate|]. injection E as <-. apply POS. now left.
    - intros [[[v' chal] evals] comms] (H1 & H2 & H3). apply (sound_bind F (fun _ => True) _ 0 0); [apply any_true|]. intros [v2 evals2] _. apply sound_bind0. intros [] _.
      eapply (sound_bind F good _ 0 0); [|intros final G; constructor; exact G]. apply HF; [exact H1| |apply H3; constructor].
      rewrite H2. destruct arities as [|a ars]; [reflexivity|]. cbn [tl length]. now rewrite Nat.sub_0_r.
  Qed.
End Commitments.

Fact fri_commitments_ex : folds_in 7 [2; 3; 4]%nat = 2%nat /\ folds_in 9 [2; 3; 4]%nat = 3%nat. Proof. split; reflexivity. Qed.
