(** C37: the regular sumcheck prover.  It meets the contract of provers ([serves]), so that together
    with the batch drivers an honest run is accepted. *)
Require Import Coq.setoid_ring.Ring Coq.Arith.Arith Coq.Lists.List Coq.Bool.Bool Coq.NArith.NArith Coq.Sorting.Permutation Coq.Sorting.Sorted Lia.
From Verif Require Import Base.Fld Base.Lists Base.Sums Base.Poly Base.NatBits Math.MleSpec Math.MleModel Math.MleProps
  Math.UnivariateModel Math.UnivariateProps Protocol.Proto Protocol.Complete Ntt.NttSpec Ntt.SubspaceModel Ntt.SubspaceProps Field.TowerProofs Field.Examples
  Sumcheck.SumcheckModel Sumcheck.SumcheckSpec Sumcheck.SumcheckProofs Sumcheck.BatchProverModel Sumcheck.BatchProverSpec
  Sumcheck.SumcheckProps Sumcheck.StateModel Sumcheck.FoldProofs Sumcheck.StateProofs Sumcheck.RegularModel Sumcheck.RegularProofs.
Import ListNotations.

Section Props.
  Variable F : field.
  Local Open Scope fld_scope.

  (** The multilinear [m] given to the prover (packed with [mp_lw m] variables per word, as the fold
      functions of its type require) has the values of [v] on the hypercube of dimension [n]. *)
  Definition holds_table (lw n : nat) (v : nat -> F) (m : mpoly F) : Prop :=
    poly_ok F lw m /\ me_mu (mp_mle m) = n /\ forall x, (x < 2 ^ n)%nat -> table (mp_mle m) x = v x.

  (** What the caller of the prover has to ensure. *)
  Definition job_ok (lw max : nat) (j : inst F * list (mpoly F)) : Prop :=
    let i := fst j in
    inst_ok i /\ claim_true i /\ cl_sums (fst i) <> [] /\
    (forall cs, In cs (cl_sums (fst i)) -> (1 <= c_deg (fst cs))%nat /\ (c_deg (fst cs) + 1 <= max)%nat) /\
    Forall2 (holds_table lw (cl_n (fst i))) (snd i) (snd j) /\
    (snd j = [] -> cl_n (fst i) = 0%nat).

  Lemma equal_n_vars lw n vs ms : Forall2 (holds_table lw n) vs ms -> (ms = [] -> n = 0%nat) -> equal_n_vars_check ms = Ok n.
  Proof.
    intros H Z. destruct ms as [|m ms]; [now rewrite Z|]. inversion H as [|v ? vs' ? [_ [M _]] H']; subst. cbn [equal_n_vars_check].
    assert (FA : forallb (fun m' => (me_mu (mp_mle m') =? me_mu (mp_mle m))%nat) ms = true).
    { clear - H'. apply forallb_forall. intros m' Hm. induction H' as [|v q vs qs [_ [M _]] H IH]; [destruct Hm|].
      destruct Hm as [->|Hm]; auto. apply Nat.eqb_eq. auto. }
    now rewrite FA.
  Qed.

  Theorem regular_prover_serves (lw mb : nat) (junk : nat -> list F) (parts : nat -> list (list nat)) (o : order)
      (factory : nat -> res (evdomain F)) (switchover : mpoly F -> nat) rest max (i : inst F) (ms : list (mpoly F)) :
    (forall n, length (junk n) = n) -> (forall N, Permutation (concat (parts N)) (seq 0 N)) ->
    factory_ok F factory rest max -> job_ok lw max (i, ms) ->
    exists s, regular_new lw o ms (cl_sums (fst i)) factory switchover = Ok s /\
              serves (regular_ops lw mb junk parts) o i (cl_n (fst i)) [] s.
  Proof.
    intros HJ HP HF [Hi [HT [HN [HDeg [HM HE]]]]]. cbn [fst snd] in *.
    unfold regular_new. rewrite (equal_n_vars lw _ _ _ HM HE). cbn [rbind].
    pose proof (forall2_length _ _ _ HM) as LM. pose proof Hi as [Lv HC].
    assert (EX : existsb (fun cs => negb (c_nv (fst cs) =? length ms)%nat) (cl_sums (fst i)) = false).
    { apply not_true_iff_false. intros E. apply existsb_exists in E as [cs [Hcs E]]. destruct (HC cs Hcs) as [_ NV].
      rewrite NV, <- Lv, LM, Nat.eqb_refl in E. discriminate. }
    rewrite EX.
    destruct (domains_ok F factory rest max (map fst (cl_sums (fst i))) HF) as [ds [ED FD]].
    { intros c Hc. apply in_map_iff in Hc as [cs [<- Hcs]]. now apply HDeg. }
    rewrite map_map in ED. rewrite ED. cbn [rbind].
    destruct (nontrivial_ok F rest _ _ FD) as [D [EN [DM [DL DE]]]]. rewrite EN. cbn [rbind].
    destruct (ps_new_ok F lw o (cl_n (fst i)) (snd i) ms switchover (map snd (cl_sums (fst i))) (firstn (D - 2) rest)) as [st [cap [ES [SI PL]]]].
    { exact HM. }
    rewrite ES. cbn [rbind]. eexists. split; [reflexivity|].
    apply (regular_serves F lw mb junk HJ parts HP o i rest ds D cap Hi HN FD DM DL).
    - apply DE. destruct (cl_sums (fst i)); [congruence|discriminate].
    - unfold rinv. cbn. auto.
    - cbn [rg_state]. rewrite PL. f_equal. apply map_ext_in. intros cs Hcs. rewrite total_true. now apply HT.
  Qed.

  Lemma some_degree_jobs lw max jobs : Forall (job_ok lw max) jobs -> some_degree (map fst jobs).
  Proof.
    intros H. destruct jobs as [|j jobs]; [now left|]. right.
    assert (EX : exists i, In i (map fst (j :: jobs)) /\ cl_n (fst i) = max_vars (map fst (j :: jobs))).
    { cbn [map]. clear H. generalize (map fst jobs) as l. intros l. generalize (fst j) as i. clear.
      unfold max_vars. induction l as [|b l IH]; intros i; cbn [map fold_right].
      - exists i. split; [now left|lia].
      - destruct (IH b) as [x [Hx E]]. cbn [map fold_right] in E.
        destruct (le_lt_dec (cl_n (fst i)) (cl_n (fst x))) as [L|L].
        + exists x. split; [now right|]. lia.
        + exists i. split; [now left|]. lia. }
    destruct EX as [i [Hi E]]. exists i. split; auto. split; auto.
    apply in_map_iff in Hi as [j' [<- Hj]]. rewrite Forall_forall in H. destruct (H j' Hj) as [_ [_ [N [D _]]]].
    unfold max_individual_degree. destruct (cl_sums (fst (fst j'))) as [|cs l]; [congruence|]. cbn [map fold_right].
    specialize (D cs (or_introl eq_refl)). lia.
  Qed.

  Section Complete.
    Variable lw mb : nat.
    Variable junk : nat -> list F.
    Variable parts : nat -> list (list nat).
    Variable o : order.
    Variable factory : nat -> res (evdomain F).
    Variable switchover : mpoly F -> nat.
    Variable rest : list F.
    Variable max : nat.
    Hypothesis junk_length : forall n, length (junk n) = n.
    Hypothesis parts_ok : forall N, Permutation (concat (parts N)) (seq 0 N).
    Hypothesis factory_good : factory_ok F factory rest max.

    Definition new_provers (jobs : list (inst F * list (mpoly F))) : res (list (regular F)) :=
      collect_res (map (fun j => regular_new lw o (snd j) (cl_sums (fst (fst j))) factory switchover) jobs).

    Lemma new_provers_ok jobs : Forall (job_ok lw max) jobs -> exists provers, new_provers jobs = Ok provers /\
      Forall2 (fun i s => serves (regular_ops lw mb junk parts) o i (cl_n (fst i)) [] s) (map fst jobs) provers.
    Proof.
      intros H. destruct (collect_ex (fun j : inst F * list (mpoly F) => regular_new lw o (snd j) (cl_sums (fst (fst j))) factory switchover)
        (fun j s => serves (regular_ops lw mb junk parts) o (fst j) (cl_n (fst (fst j))) [] s) jobs) as [ps [E FA]].
      { rewrite Forall_forall in H. intros [i ms] Hj. apply (regular_prover_serves lw mb junk parts o factory switchover rest max i ms); auto. }
      exists ps. split; auto. clear E H. induction FA; cbn [map]; constructor; auto.
    Qed.

    (** C37: for true claims the provers are built, the batch prover finishes with every choice of
        challenges, and the verifier accepts what it wrote and returns the same, true output. *)
    Theorem regular_batch_complete jobs : Forall (job_ok lw max) jobs ->
      StronglySorted ge (map (fun j => cl_n (fst (fst j))) jobs) ->
      exists provers, new_provers jobs = Ok provers /\
      (forall ch : nat -> F, exists n out tape,
         prun (batch_prove (regular_ops lw mb junk parts) provers) (map ch (seq 0 n)) = Ok (out, tape, [])) /\
      (forall cs out tape rest', prun (batch_prove (regular_ops lw mb junk parts) provers) cs = Ok (out, tape, rest') ->
         forall extra, vrun (batch_verify o (map fst (map fst jobs))) (tape ++ extra) cs = Ok (out, extra, rest') /\
                       truthful o (map fst jobs) out).
    Proof.
      intros H SD. destruct (new_provers_ok jobs H) as [ps [E SV]]. exists ps. split; auto.
      apply sumcheck_batch_complete; auto.
      - apply Forall_forall. intros i Hi. apply in_map_iff in Hi as [j [<- Hj]]. rewrite Forall_forall in H. now apply H.
      - now apply (some_degree_jobs lw max).
      - apply Forall_forall. intros i Hi. apply in_map_iff in Hi as [j [<- Hj]]. rewrite Forall_forall in H. now apply H.
      - rewrite map_map. auto.
    Qed.

    Theorem regular_front_loaded_complete jobs : Forall (job_ok lw max) jobs ->
      StronglySorted le (map (fun j => cl_n (fst (fst j))) jobs) ->
      exists provers, new_provers jobs = Ok provers /\
      let prover := put b <- bp_new (regular_ops lw mb junk parts) provers; bp_run (regular_ops lw mb junk parts) b in
      let verifier := get v <- bv_new (map fst (map fst jobs)); bv_run v in
      (forall ch : nat -> F, exists n out tape, prun prover (map ch (seq 0 n)) = Ok (out, tape, [])) /\
      (forall cs out tape rest', prun prover cs = Ok (out, tape, rest') ->
         forall extra, vrun verifier (tape ++ extra) cs = Ok (out, extra, rest') /\ truthful_front o (map fst jobs) out).
    Proof.
      intros H SD. destruct (new_provers_ok jobs H) as [ps [E SV]]. exists ps. split; auto.
      apply front_loaded_complete; auto.
      - apply Forall_forall. intros i Hi. apply in_map_iff in Hi as [j [<- Hj]]. rewrite Forall_forall in H. now apply H.
      - now apply (some_degree_jobs lw max).
      - apply Forall_forall. intros i Hi. apply in_map_iff in Hi as [j [<- Hj]]. rewrite Forall_forall in H. now apply H.
      - rewrite map_map. auto.
    Qed.
  End Complete.

  Add Ring Fring : (f_ring F).

  (** The evaluation domains of a subspace whose first basis element is 1 are as required. *)
  Theorem subspace_factory_ok (bs : list F) max : char2 F -> lin_indep (1 :: bs) -> (length (1%F :: bs) <= usize_bits)%nat ->
    (max - 1 <= 2 ^ length (1%F :: bs))%nat ->
    factory_ok F (domain_create (1 :: bs)) (skipn 2 (sub_iter (1%F :: bs))) max.
  Proof.
    intros CH I L M. destruct (subspace_iter_nodup F CH (1 :: bs) I L) as [ND LEN].
    assert (P2 : (2 <= 2 ^ length (1%F :: bs))%nat) by (cbn [length Nat.pow]; pose proof (pow2_pos (length bs)); lia).
    assert (SH : sub_iter (1 :: bs) = 0 :: 1 :: skipn 2 (sub_iter (1 :: bs))).
    { assert (U : (2 <= 2 ^ usize_bits)%nat) by (pose proof (pow2_le _ _ L); lia).
      pose proof (subspace_iter_spec F (1 :: bs) 0) as E0. pose proof (subspace_iter_spec F (1 :: bs) 1) as E1.
      rewrite Nat.min_l in E0, E1 by auto.
      rewrite (proj2 (Nat.ltb_lt _ _)) in E0 by lia. rewrite (proj2 (Nat.ltb_lt _ _)) in E1 by lia.
      rewrite subspace_get_spec in E0 by lia. rewrite subspace_get_spec in E1 by lia.
      destruct (sub_iter (1 :: bs)) as [|x [|y l]] eqn:EQ; [discriminate|discriminate|].
      cbn [nth_error skipn] in *. injection E0 as ->. injection E1 as ->. unfold elem.
      f_equal; [|f_equal].
      - apply sumn_zero. intros b _. now rewrite Nat.bits_0.
      - rewrite (sumn_single _ _ 0%nat); [reflexivity|cbn [length]; lia|]. intros [|b] _ Hb; [congruence|].
        change 1%nat with (2 ^ 0)%nat. rewrite Nat.pow2_bits_false by lia. reflexivity. }
    split.
    - rewrite skipn_length, LEN. lia.
    - intros size Hs.
      assert (FE : firstn (size - (if (3 <=? size)%nat then 1 else 0)) (sub_iter (1 :: bs)) = 0 :: 1 :: firstn (size - 3) (skipn 2 (sub_iter (1 :: bs)))).
      { rewrite SH at 1. destruct (Nat.leb_spec 3 size).
        - replace (size - 1)%nat with (S (S (size - 3))) by lia. reflexivity.
        - replace size with 2%nat by lia. reflexivity. }
      unfold domain_create, make_evaluation_points. cbv zeta. rewrite firstn_length, LEN, Nat.min_l by (destruct (Nat.leb_spec 3 size); lia).
      rewrite Nat.eqb_refl, FE. cbn [rbind].
      destruct (proj1 (from_points_correct F (0 :: 1 :: firstn (size - 3) (skipn 2 (sub_iter (1 :: bs)))) (3 <=? size)%nat)) as [d [E _]].
      + rewrite <- FE. now apply NoDup_prefix.
      + exists d. auto.
  Qed.
End Props.

(* ------------------------------------------------------------------ *)

Definition ex_tab (l : list N) (x : nat) : X16 := nth x (els l) f0.
Definition ex_a : list N := [3; 7; 0; 12; 5; 5; 9; 1]%N.
Definition ex_b : list N := [1; 2; 4; 8; 15; 0; 6; 11]%N.
Definition ex_inst : inst X16 :=
  (mkClaim 3 2 [(product2 X16, sumn 8 (fun x => fmul (ex_tab ex_a x) (ex_tab ex_b x)))], [ex_tab ex_a; ex_tab ex_b]).
Definition ex_polys : list (mpoly X16) := [mkPoly true true 1 (mkMle 3 (els ex_a)); mkPoly false false 2 (mkMle 3 (els ex_b))].
Definition ex_parts (n : nat) : list (list nat) := map (fun i => [(n - 1 - i)%nat]) (seq 0 n).

Lemma ex_parts_perm N : Permutation (concat (ex_parts N)) (seq 0 N).
Proof.
  assert (E : concat (ex_parts N) = rev (seq 0 N)); [|rewrite E; symmetry; apply Permutation_rev].
  unfold ex_parts. rewrite <- flat_map_concat_map.
  induction N as [|N IH]; [reflexivity|]. rewrite seq_S at 2. rewrite rev_app_distr. cbn [rev app seq flat_map].
  rewrite Nat.sub_0_r. cbn [app Nat.sub]. rewrite Nat.sub_0_r. f_equal. rewrite <- IH, <- seq_shift, flat_map_concat_map, map_map, <- flat_map_concat_map.
  apply flat_map_ext. intros i. f_equal. lia.
Qed.

Definition ex_rest : list X16 := skipn 2 (sub_iter (els [1; 6; 8]%N)).

Lemma ex_lin_indep : lin_indep (els [1; 6; 8]%N).
Proof.
  intros m Hm E. change (2 ^ length (els [1; 6; 8]%N)) with 8 in Hm. apply (f_equal bits) in E.
  do 8 (destruct m as [|m]; [first [reflexivity|exfalso; vm_compute in E; discriminate E]|]). lia.
Qed.

Definition ran {A} (r : res (A * list X16 * list X16)) : option nat :=
  match r with Ok (_, tape, []) => Some (length tape) | _ => None end.
Lemma ran_inv {A} (r : res (A * list X16 * list X16)) m : ran r = Some m ->
  exists out tape, r = Ok (out, tape, []) /\ length tape = m.
Proof. destruct r as [[[out tape] [|]]| |]; try discriminate. intros H. injection H as <-. eauto. Qed.
Definition panicked {A} (r : res A) : bool := match r with Panic => true | _ => false end.
Lemma panicked_inv {A} (r : res A) : panicked r = true -> r = Panic.
Proof. destruct r; try discriminate. auto. Qed.

(** Two multilinears of three variables, the second stored in wider words than the first. *)
Example regular_ex :
  job_ok X16 1 4 (ex_inst, ex_polys) /\ factory_ok X16 (domain_create (els [1; 6; 8]%N)) ex_rest 4 /\
  forall o, exists provers, new_provers X16 1 o (domain_create (els [1; 6; 8]%N)) (fun m => if mp_direct m then 1%nat else 2%nat) [(ex_inst, ex_polys)] = Ok provers /\
    exists out tape, prun (batch_prove (regular_ops 1 10 (fun n => repeat (el 9%N) n) ex_parts) provers) (els [2; 7; 11; 13]%N) = Ok (out, tape, []) /\
      vrun (batch_verify o [fst ex_inst]) tape (els [2; 7; 11; 13]%N) = Ok (out, [], []) /\ length tape = 8.
Proof.
  assert (J : job_ok X16 1 4 (ex_inst, ex_polys)).
  { split; [|split; [|split; [|split; [|split]]]].
    - split; [reflexivity|]. intros cs [<-|[]]. split; [apply product2_ok|reflexivity].
    - intros cs [<-|[]]. reflexivity.
    - discriminate.
    - intros cs [<-|[]]. cbn. lia.
    - repeat constructor; try reflexivity; try discriminate; cbn; lia.
    - discriminate. }
  assert (FO : factory_ok X16 (domain_create (els [1; 6; 8]%N)) ex_rest 4).
  { apply (subspace_factory_ok X16 (els [6; 8]%N) 4); [vm_compute; reflexivity|apply ex_lin_indep|cbn; unfold usize_bits; lia|cbn; lia]. }
  split; [exact J|]. split; [exact FO|]. intros o.
  destruct (regular_batch_complete X16 1 10 (fun n => repeat (el 9%N) n) ex_parts o (domain_create (els [1; 6; 8]%N))
    (fun m => if mp_direct m then 1%nat else 2%nat) ex_rest 4 (fun n => repeat_length _ n) ex_parts_perm FO [(ex_inst, ex_polys)]
    (Forall_cons _ J (Forall_nil _)) (SSorted_cons _ (SSorted_nil _) (Forall_nil _))) as [ps [E [_ C]]].
  exists ps. split; auto.
  assert (R : exists out tape, prun (batch_prove (regular_ops 1 10 (fun n => repeat (el 9%N) n) ex_parts) ps) (els [2; 7; 11; 13]%N) = Ok (out, tape, []) /\ length tape = 8).
  { assert (B : (match new_provers X16 1 o (domain_create (els [1; 6; 8]%N)) (fun m => if mp_direct m then 1%nat else 2%nat) [(ex_inst, ex_polys)] with
                 | Ok ps => ran (prun (batch_prove (regular_ops 1 10 (fun n => repeat (el 9%N) n) ex_parts) ps) (els [2; 7; 11; 13]%N))
                 | _ => None end) = Some 8) by (destruct o; vm_compute; reflexivity).
    rewrite E in B. exact (ran_inv _ _ B). }
  destruct R as [out [tape [R L]]]. exists out, tape. split; auto. split; auto.
  destruct (C _ _ _ _ R []) as [V _]. now rewrite app_nil_r in V.
Qed.

(** A composition of degree 0: the prover is built, and panics in the first round. *)
Theorem regular_constant_composition_refuted : exists (i : inst X16) (ms : list (mpoly X16)) s,
  inst_ok i /\ claim_true i /\ Forall2 (holds_table X16 0 (cl_n (fst i))) (snd i) ms /\
  regular_new 0 LowToHigh ms (cl_sums (fst i)) (domain_create (els [1; 6; 8]%N)) (fun _ => 1%nat) = Ok s /\
  forall a, regular_execute 0 10 (fun n => repeat (el 9%N) n) ex_parts s a = Panic.
Proof.
  exists (constant_inst (el 0%N)), [mkPoly true true 0 (mkMle 1 (els [3; 7]%N))].
  destruct (regular_new 0 LowToHigh [mkPoly true true 0 (mkMle 1 (els [3; 7]%N))] (cl_sums (fst (constant_inst (el 0%N))))
    (domain_create (els [1; 6; 8]%N)) (fun _ => 1%nat)) as [s| |] eqn:E; [|exfalso..].
  exists s. split; [|split; [|split; [|split]]].
  - split; [reflexivity|]. intros cs [<-|[]]. split; [apply constant_comp_ok|reflexivity].
  - intros cs [<-|[]]. vm_compute. reflexivity.
  - constructor; [|constructor]. split; [|split].
    + repeat split; auto.
    + reflexivity.
    + intros x Hx. reflexivity.
  - reflexivity.
  - intros a.
    assert (B : (match regular_new 0 LowToHigh [mkPoly true true 0 (mkMle 1 (els [3; 7]%N))] (cl_sums (fst (constant_inst (el 0%N))))
                   (domain_create (els [1; 6; 8]%N)) (fun _ => 1%nat) with
                 | Ok s => panicked (regular_execute 0 10 (fun n => repeat (el 9%N) n) ex_parts s a)
                 | _ => false end) = true) by (vm_compute; reflexivity).
    rewrite E in B. exact (panicked_inv _ B).
  - assert (B : (match regular_new 0 LowToHigh [mkPoly true true 0 (mkMle 1 (els [3; 7]%N))] (cl_sums (fst (constant_inst (el 0%N))))
                   (domain_create (els [1; 6; 8]%N)) (fun _ => 1%nat) with Ok _ => true | _ => false end) = true) by (vm_compute; reflexivity).
    rewrite E in B. discriminate.
  - assert (B : (match regular_new 0 LowToHigh [mkPoly true true 0 (mkMle 1 (els [3; 7]%N))] (cl_sums (fst (constant_inst (el 0%N))))
                   (domain_create (els [1; 6; 8]%N)) (fun _ => 1%nat) with Ok _ => true | _ => false end) = true) by (vm_compute; reflexivity).
    rewrite E in B. discriminate.
Qed.
