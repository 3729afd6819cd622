(** C36-C39: the sumcheck protocols. *)
Require Import Coq.Arith.Arith Coq.Lists.List Coq.Bool.Bool Coq.Sorting.Sorted Lia.
From Verif Require Import Base.Fld Base.Lists Base.Sums Base.Poly Math.MleSpec Math.MleModel Math.UnivariateModel Math.UnivariateProps Protocol.Proto Protocol.Soundness
  Protocol.Complete Protocol.Safe Field.TowerProofs Field.Examples Sumcheck.SumcheckModel Sumcheck.SumcheckSpec Sumcheck.SumcheckProofs Sumcheck.SumcheckSound
  Sumcheck.BatchProverModel Sumcheck.BatchProverSpec Sumcheck.BatchProverProofs Sumcheck.FrontLoadedOps.
Import ListNotations.

(** Some claim with the most variables has a composition that is not a constant.  Without this the
    round messages are empty and both theorems below fail ([constant_composition_refuted]). *)
Definition some_degree {F : field} (insts : list (inst F)) : Prop :=
  max_vars insts = 0%nat \/
  exists i, In i insts /\ cl_n (fst i) = max_vars insts /\ (1 <= max_individual_degree (fst i))%nat.

(** What a batch of true sums weighs: every claim's composites are mixed with the powers
    [a, a^2, ...] of its coefficient. *)
Definition weighted_true_sums {F : field} (insts : list (inst F)) (coeffs : list F) : F :=
  fsum (map (fun ia : inst F * F => fmul (snd ia)
               (peval (map (fun cs => true_sum (fst cs) (cl_n (fst (fst ia))) (snd (fst ia))) (cl_sums (fst (fst ia)))) (snd ia)))
            (combine insts coeffs)).

Section Props.
  Variable F : field.
  Add Ring Fring : (f_ring F).
  Local Open Scope fld_scope.

  (* ---------------------------------------------------------------- *)
  (** C36 *)

  Lemma of_sound {A} (good : A -> Prop) e (p : vproto F A) : sound (fun a => ~ good a) e p ->
    forall (strategy : list F -> nat -> list F) (S : list F) (k : nat) (L : list (list F)),
      NoDup S -> NoDup L ->
      (forall cs, In cs L -> length cs = k /\ incl cs S /\ exists a, vplay p strategy [] 0 cs = Ok a /\ good a) ->
      (length L * length S <= e * length S ^ k)%nat.
  Proof.
    intros H strategy S k L NS NL HL. apply (sound_count F _ e p H strategy S k L NS NL).
    intros cs Hc. destruct (HL cs Hc) as [H1 [H2 [a [H3 H4]]]]. repeat split; auto. exists a. split; auto.
  Qed.

  (** [batch_verify] on claims at least one of which is false: against any strategy of the prover, of
      the vectors of [k] challenges from any set [S], at most a fraction
      [(number of composites + rounds * degree) / |S|] make the verifier accept with evaluations that
      are the true ones. *)
  Theorem sumcheck_batch_soundness (o : order) (insts : list (inst F)) :
    Forall inst_ok insts -> some_degree insts ->
    (exists i, In i insts /\ ~ claim_true i) ->
    forall (strategy : list F -> nat -> list F) (S : list F) (k : nat) (L : list (list F)),
      NoDup S -> NoDup L ->
      (forall cs, In cs L -> length cs = k /\ incl cs S /\
         exists out, vplay (batch_verify o (map fst insts)) strategy [] 0 cs = Ok out /\ truthful o insts out) ->
      (length L * length S <= (n_composites insts + max_vars insts * max_degree insts) * length S ^ k)%nat.
  Proof.
    intros OKS DEG BAD. apply of_sound.
    destruct (is_sorted_ascending (rev (map cl_n (map fst insts)))) eqn:SO.
    - apply batch_verify_sound; auto. rewrite map_map in SO. now apply sorted_desc.
    - unfold batch_verify. rewrite SO. constructor.
  Qed.

  Lemma new_prebatched_inv coeffs sum (insts : list (inst F)) v : new_prebatched coeffs sum (map fst insts) = Ok v ->
    StronglySorted le (map (fun i : inst F => cl_n (fst i)) insts) /\ length coeffs = length insts /\
    v = mkV (with_degrees (map fst insts) coeffs) 0 (SumV sum).
  Proof.
    unfold new_prebatched. rewrite map_map, map_length.
    destruct (is_sorted_ascending _) eqn:SO; cbn [negb]; [|intros H; discriminate H].
    destruct (length coeffs =? _)%nat eqn:E; cbn [negb]; [|intros H; discriminate H]. apply Nat.eqb_eq in E.
    intros H. injection H as <-. repeat split; auto. now apply sorted_asc.
  Qed.

  Lemma forall2_len {A B} (R : A -> B -> Prop) l m : Forall2 R l m -> length l = length m.
  Proof. induction 1; cbn [length]; auto. Qed.

  Lemma map_fst_combine {A B} (l : list A) (m : list B) : length m = length l -> map fst (combine l m) = l.
  Proof. revert m. induction l as [|a l IH]; intros [|b m] E; try discriminate; [reflexivity|]. cbn [combine map fst]. f_equal. apply IH. now injection E. Qed.
  Lemma map_snd_combine {A B} (l : list A) (m : list B) : length m = length l -> map snd (combine l m) = m.
  Proof. revert m. induction l as [|a l IH]; intros [|b m] E; try discriminate; [reflexivity|]. cbn [combine map snd]. f_equal. apply IH. now injection E. Qed.
  Lemma combine_claims (l : list (inst F)) (m : list F) : length m = length l ->
    map (fun ia : inst F * F => fst (fst ia)) (combine l m) = map fst l.
  Proof.
    intros E. transitivity (map fst (map fst (combine l m))); [now rewrite map_map|]. now rewrite map_fst_combine.
  Qed.

  Lemma weighted_TF o (insts : list (inst F)) coeffs : weighted_true_sums insts coeffs = TF F o (combine insts coeffs) [].
  Proof.
    unfold weighted_true_sums, TF. f_equal. apply map_ext. intros ia. cbn [length]. rewrite Nat.sub_0_r, TV_init, weighted_peval.
    reflexivity.
  Qed.

  Lemma front_loaded_prebatched_sound (o : order) (insts : list (inst F)) (coeffs : list F) (sum : F) (v : bverifier F) :
    Forall inst_ok insts -> some_degree insts ->
    new_prebatched coeffs sum (map fst insts) = Ok v -> sum <> weighted_true_sums insts coeffs ->
    sound (fun out => ~ truthful_front o insts out) (max_vars insts * max_degree insts) (bv_run v).
  Proof.
    intros OKS DEG EV NE.
    destruct (new_prebatched_inv _ _ _ _ EV) as [SA [LE ->]].
    apply (bv_run_sound F o insts OKS SA DEG (combine insts coeffs) _ sum). constructor; cbn [v_claims v_round v_last length]; auto.
    - now apply map_fst_combine.
    - rewrite combine_claims, map_snd_combine by (rewrite ?map_length in LE; lia). reflexivity.
    - intros i [].
    - intros; lia.
    - intros _. rewrite <- (weighted_TF o). exact NE.
  Qed.

  (** The front-loaded batch verifier with coefficients supplied by the caller: here the running sum of
      the batch is wrong. *)
  Theorem front_loaded_prebatched_soundness (o : order) (insts : list (inst F)) (coeffs : list F) (sum : F) (v : bverifier F) :
    Forall inst_ok insts -> some_degree insts ->
    new_prebatched coeffs sum (map fst insts) = Ok v -> sum <> weighted_true_sums insts coeffs ->
    forall (strategy : list F -> nat -> list F) (S : list F) (k : nat) (L : list (list F)),
      NoDup S -> NoDup L ->
      (forall cs, In cs L -> length cs = k /\ incl cs S /\
         exists out, vplay (bv_run v) strategy [] 0 cs = Ok out /\ truthful_front o insts out) ->
      (length L * length S <= max_vars insts * max_degree insts * length S ^ k)%nat.
  Proof.
    intros OKS DEG EV NE. apply of_sound. eapply front_loaded_prebatched_sound; eauto.
  Qed.

  Lemma front_loaded_sound (o : order) (insts : list (inst F)) :
    Forall inst_ok insts -> some_degree insts -> (exists i, In i insts /\ ~ claim_true i) ->
    sound (fun out => ~ truthful_front o insts out) (n_composites insts + max_vars insts * max_degree insts)
      (get v <- bv_new (map fst insts); bv_run v).
  Proof.
    intros OKS DEG BAD. unfold bv_new. apply sound_assoc. rewrite map_length.
    apply (vsamples_sound F o insts) with (is := insts) (s := 0) (t := 0); [exact DEG|now right|]. intros coeffs LC NE. apply sound_bind0. intros v EV.
    destruct (new_prebatched_inv _ _ _ _ EV) as [SA [LE ->]].
    eapply (bv_run_sound F o insts OKS SA DEG (combine insts coeffs)). constructor; cbn [v_claims v_round v_last length]; auto.
    - now apply map_fst_combine.
    - rewrite combine_claims, map_snd_combine by (rewrite ?map_length in LE; lia). reflexivity.
    - intros i [].
    - intros; lia.
    - intros _. rewrite fold_left_fsum. intros E. apply NE.
      transitivity (TF F o (combine insts coeffs) []); [exact E|].
      unfold TF. cbn [length]. transitivity (0 + fsum (map (fun ia : inst F * F => TV o (fst ia) (snd ia) [] (cl_n (fst (fst ia)) - 0)) (combine insts coeffs))); [ring|].
      f_equal. f_equal. apply map_ext. intros ia. now rewrite Nat.sub_0_r.
  Qed.

  (** The front-loaded batch verifier that draws its coefficients. *)
  Theorem front_loaded_soundness (o : order) (insts : list (inst F)) :
    Forall inst_ok insts -> some_degree insts ->
    (exists i, In i insts /\ ~ claim_true i) ->
    forall (strategy : list F -> nat -> list F) (S : list F) (k : nat) (L : list (list F)),
      NoDup S -> NoDup L ->
      (forall cs, In cs L -> length cs = k /\ incl cs S /\
         exists out, vplay (get v <- bv_new (map fst insts); bv_run v) strategy [] 0 cs = Ok out /\ truthful_front o insts out) ->
      (length L * length S <= (n_composites insts + max_vars insts * max_degree insts) * length S ^ k)%nat.
  Proof.
    intros OKS DEG BAD. apply of_sound. now apply front_loaded_sound.
  Qed.

  (* ---------------------------------------------------------------- *)
  (** C37 *)

  (** If all claims are true and every prover computes what its trait documents, then whatever the
      challenges are the batch prover succeeds, and the verifier reads exactly its proof, accepts, and
      outputs the same challenges and evaluations, which are the true ones. *)
  Theorem sumcheck_batch_complete {St} (ops : prover_ops F St) (o : order) (insts : list (inst F)) (provers : list St) :
    Forall inst_ok insts -> some_degree insts -> Forall claim_true insts ->
    StronglySorted ge (map (fun i : inst F => cl_n (fst i)) insts) ->
    Forall2 (fun i s => serves ops o i (cl_n (fst i)) [] s) insts provers ->
    (forall ch : nat -> F, exists n out tape, prun (batch_prove ops provers) (map ch (seq 0 n)) = Ok (out, tape, [])) /\
    (forall cs out tape rest, prun (batch_prove ops provers) cs = Ok (out, tape, rest) ->
       forall extra, vrun (batch_verify o (map fst insts)) (tape ++ extra) cs = Ok (out, extra, rest) /\ truthful o insts out).
  Proof.
    intros OKS DEG TRUE SD SV. pose proof (batch_lock F St ops o insts SD TRUE DEG OKS provers SV) as H. split.
    - apply (agree_total F _ [] _ _ H).
    - intros cs out tape rest E extra. destruct (agree_run F _ [] _ _ H cs out tape rest E extra) as [b [E' [<- T]]]. now split.
  Qed.

  Lemma front_agree {St} (ops : prover_ops F St) (o : order) (insts : list (inst F)) (provers : list St) coeffs :
    Forall inst_ok insts -> some_degree insts ->
    StronglySorted le (map (fun i : inst F => cl_n (fst i)) insts) ->
    Forall2 (fun i s => serves ops o i (cl_n (fst i)) [] s) insts provers -> length coeffs = length insts ->
    agree (fun a c => a = c /\ truthful_front o insts c) []
      (put b <- PRet (bp_new_prebatched ops coeffs provers); bp_run ops b)
      (get v <- VRet (new_prebatched coeffs (weighted_true_sums insts coeffs) (map fst insts)); bv_run v).
  Proof.
    intros OKS DEG SA SV LC.
    assert (EN : map (p_n ops) provers = map (fun i : inst F => cl_n (fst i)) insts).
    { clear -SV. induction SV as [|i s is ss H _ IH]; [reflexivity|]. cbn [map]. now rewrite (serves_n _ _ _ _ _ _ _ _ H), IH. }
    assert (LP : length provers = length insts) by (symmetry; eapply forall2_len; exact SV).
    unfold bp_new_prebatched, new_prebatched. rewrite EN, map_map, asc_sorted by exact SA.
    replace (map (fun x : claim F * list (nat -> F) => cl_n (fst x)) insts) with (map (fun i : inst F => cl_n (fst i)) insts) by reflexivity.
    rewrite asc_sorted by exact SA. cbn [negb].
    rewrite map_length, LC, LP, !Nat.eqb_refl. cbn [negb].
    replace (match provers with [] => false | first :: _ => existsb (fun s => negb (order_eqb (p_order ops s) (p_order ops first))) provers end) with false.
    2:{ destruct provers as [|p ps]; [reflexivity|]. symmetry.
        assert (EO : forall s, In s (p :: ps) -> p_order ops s = o).
        { clear -SV. intros s Hs. revert insts SV. induction (p :: ps) as [|q qs IH]; intros insts SV; [destruct Hs|].
          inversion SV as [|i ? is ? S1 S2]; subst. destruct Hs as [<-|Hs]; [|now apply (IH Hs is)].
          destruct (cl_n (fst i)); apply S1. }
        rewrite (EO p (or_introl eq_refl)). apply not_true_iff_false. rewrite existsb_exists. intros [s [Hs E]].
        rewrite (EO s Hs) in E. destruct o; discriminate. }
    cbn [pbind vbind].
    apply (front_lock F St ops o insts OKS SA DEG (combine insts coeffs)). 
    constructor; cbn [v_claims v_round v_last length bp_evals bp_round bp_provers]; auto.
    - now apply map_fst_combine.
    - rewrite combine_claims, map_snd_combine by lia. reflexivity.
    - now rewrite (weighted_TF o).
    - intros i [].
    - intros; lia.
    - clear -SV LC. revert coeffs LC. induction SV as [|i s is ss H _ IH]; intros [|a coeffs] LC; try discriminate; cbn [combine]; constructor.
      + cbn [fst snd]. rewrite Nat.sub_0_r. now split.
      + apply IH. now injection LC.
  Qed.

  (** The front-loaded batch with supplied coefficients. *)
  Theorem front_loaded_prebatched_complete {St} (ops : prover_ops F St) (o : order) (insts : list (inst F)) (provers : list St) coeffs :
    Forall inst_ok insts -> some_degree insts ->
    StronglySorted le (map (fun i : inst F => cl_n (fst i)) insts) ->
    Forall2 (fun i s => serves ops o i (cl_n (fst i)) [] s) insts provers -> length coeffs = length insts ->
    let prover := put b <- PRet (bp_new_prebatched ops coeffs provers); bp_run ops b in
    let verifier := get v <- VRet (new_prebatched coeffs (weighted_true_sums insts coeffs) (map fst insts)); bv_run v in
    (forall ch : nat -> F, exists n out tape, prun prover (map ch (seq 0 n)) = Ok (out, tape, [])) /\
    (forall cs out tape rest, prun prover cs = Ok (out, tape, rest) ->
       forall extra, vrun verifier (tape ++ extra) cs = Ok (out, extra, rest) /\ truthful_front o insts out).
  Proof.
    intros OKS DEG SA SV LC prover verifier. pose proof (front_agree ops o insts provers coeffs OKS DEG SA SV LC) as H. split.
    - apply (agree_total F _ [] _ _ H).
    - intros cs out tape rest E extra. destruct (agree_run F _ [] _ _ H cs out tape rest E extra) as [b [E' [<- T]]]. now split.
  Qed.

  (** The front-loaded batch that draws its coefficients. *)
  Theorem front_loaded_complete {St} (ops : prover_ops F St) (o : order) (insts : list (inst F)) (provers : list St) :
    Forall inst_ok insts -> some_degree insts -> Forall claim_true insts ->
    StronglySorted le (map (fun i : inst F => cl_n (fst i)) insts) ->
    Forall2 (fun i s => serves ops o i (cl_n (fst i)) [] s) insts provers ->
    let prover := put b <- bp_new ops provers; bp_run ops b in
    let verifier := get v <- bv_new (map fst insts); bv_run v in
    (forall ch : nat -> F, exists n out tape, prun prover (map ch (seq 0 n)) = Ok (out, tape, [])) /\
    (forall cs out tape rest, prun prover cs = Ok (out, tape, rest) ->
       forall extra, vrun verifier (tape ++ extra) cs = Ok (out, extra, rest) /\ truthful_front o insts out).
  Proof.
    intros OKS DEG TRUE SA SV prover verifier.
    assert (H : agree (fun a c => a = c /\ truthful_front o insts c) [] prover verifier).
    { unfold prover, verifier, bp_new, bv_new. apply agree_assoc_p, agree_assoc_v.
      rewrite map_length. replace (length provers) with (length insts) by (eapply forall2_len; exact SV).
      apply psamples_agree. intros coeffs' LC.
      replace (fold_left fadd _ 0) with (weighted_true_sums insts coeffs'); [now apply front_agree|].
      rewrite (weighted_TF o), fold_left_fsum. unfold TF. cbn [length].
      transitivity (fsum (map (fun ca => claim_sum (snd ca) (fst ca)) (combine (map fst insts) coeffs'))); [|ring].
      clear -TRUE. revert coeffs'. induction TRUE as [|i is T _ IH]; intros [|a cs]; cbn [map combine fst snd fsum]; auto.
      rewrite IH, (claim_true_sum F o i a T). rewrite Nat.sub_0_r. reflexivity. }
    split.
    - apply (agree_total F _ [] _ _ H).
    - intros cs out tape rest E extra. destruct (agree_run F _ [] _ _ H cs out tape rest E extra) as [b [E' [<- T]]]. now split.
  Qed.

  (* ---------------------------------------------------------------- *)
  (** C38 *)

  (** A round polynomial with at least two coefficients comes back from its truncation exactly when the
      claimed sum is its sum over 0 and 1. *)
  Theorem round_proof_roundtrip (c : list F) (sum : F) : (2 <= length c)%nat ->
    (recover (rc_truncate c) sum = c <-> peval c 0 + peval c 1 = sum).
  Proof.
    intros L. split.
    - intros E. rewrite <- E. apply recover_sum. intros Z. apply (f_equal (@length _)) in Z.
      unfold rc_truncate in Z. rewrite removelast_length in Z. cbn [length] in Z. lia.
    - intros <-. now apply recover_truncate.
  Qed.

  (** Whatever nonempty message the prover sends, the recovered polynomial has the claimed sum. *)
  Theorem recovered_sum (coeffs : list F) (sum : F) : (1 <= length coeffs)%nat ->
    length (recover coeffs sum) = S (length coeffs) /\
    firstn (length coeffs) (recover coeffs sum) = coeffs /\
    peval (recover coeffs sum) 0 + peval (recover coeffs sum) 1 = sum.
  Proof.
    intros L. split; [apply recover_length|]. split; [|apply recover_sum; now destruct coeffs; [cbn in L; lia|]].
    unfold recover. rewrite firstn_app, Nat.sub_diag, firstn_all. cbn [firstn]. apply app_nil_r.
  Qed.

  (** The next running sum is the value of the recovered polynomial at the challenge. *)
  Theorem round_reduces (coeffs : list F) (sum x : F) :
    interpolate_round_proof coeffs sum x = peval (recover coeffs sum) x.
  Proof. apply evaluate_univariate_correct. Qed.

  (** Adding and scaling round polynomials, and the mix of several values. *)
  Theorem round_coeffs_add (l r : list F) x : peval (rc_add l r) x = peval l x + peval r x.
  Proof. apply rc_add_peval. Qed.
  Theorem round_coeffs_mul (l : list F) k x : peval (rc_mul l k) x = k * peval l x.
  Proof. apply rc_mul_peval. Qed.
  Theorem batch_weighted (a : F) vs : batch_weighted_value a vs = sumn (length vs) (fun j => fpow a (S j) * nth j vs 0).
  Proof.
    rewrite weighted_peval. unfold peval. rewrite <- sumn_scale. apply sumn_ext. intros j _. cbn [fpow]. ring.
  Qed.

  (* ---------------------------------------------------------------- *)
  (** C39 *)

  (** What a log of calls says. *)
  Definition is_finish_claim (e : call F * res (option (list F))) : bool :=
    match e with (CTryFinish, Ok (Some _)) | (CTryFinish, Err) => true | _ => false end.
  Definition is_finish_round (e : call F * res (option (list F))) : bool :=
    match e with (CFinishRound _, Ok _) => true | _ => false end.
  Definition is_receive (e : call F * res (option (list F))) : bool :=
    match e with (CReceive, Ok _) => true | _ => false end.
  Definition count {A} (f : A -> bool) (l : list A) : nat := length (filter f l).
  (** a round proof has been received and its round not finished *)
  Definition awaiting (log : list (call F * res (option (list F)))) : bool :=
    fold_left (fun b e => if is_receive e then true else if is_finish_round e then false else b) log false.

  Definition comps_total (claims : list (claim F)) : Prop :=
    forall c cs q, In c claims -> In cs (cl_sums c) -> c_eval (fst cs) q <> Panic.

  Record OInv (claims : list (claim F)) (log : list (call F * res (option (list F)))) (v : bverifier F) : Prop :=
    { oi_claims : map (fun x => fst (fst x)) (v_claims v) = skipn (count is_finish_claim log) claims;
      oi_count : (count is_finish_claim log <= length claims)%nat;
      oi_round : v_round v = count is_finish_round log;
      oi_last : awaiting log = match v_last v with Coeffs _ => true | SumV _ => false end;
      oi_rem : forall c, In c (map (fun x => fst (fst x)) (v_claims v)) -> (v_round v <= cl_n c)%nat;
      oi_wait : awaiting log = true -> forall c, In c (map (fun x => fst (fst x)) (v_claims v)) -> (v_round v < cl_n c)%nat }.

  Lemma count_snoc {A} (f : A -> bool) l x : count f (l ++ [x]) = (count f l + if f x then 1 else 0)%nat.
  Proof. unfold count. rewrite filter_app, app_length. cbn [filter]. now destruct (f x). Qed.

  Lemma awaiting_snoc log e : awaiting (log ++ [e]) = if is_receive e then true else if is_finish_round e then false else awaiting log.
  Proof. unfold awaiting. now rewrite fold_left_app. Qed.

  Lemma collect_no_panic {A} (l : list (res A)) : (forall r, In r l -> r <> Panic) -> collect_res l <> Panic.
  Proof.
    induction l as [|r l IH]; intros H; cbn [collect_res]; [discriminate|].
    pose proof (H r (or_introl eq_refl)). destruct r; cbn [rbind]; [|discriminate|congruence].
    destruct (collect_res l) eqn:E; cbn [rbind]; [discriminate|discriminate|]. intros _. apply IH; [|reflexivity]. intros; apply H; now right.
  Qed.

  Lemma skipn_cons {A} n (l : list A) x m : x :: m = skipn n l -> m = skipn (S n) l /\ (n < length l)%nat /\ nth_error l n = Some x.
  Proof.
    revert l. induction n as [|n IH]; intros [|y l]; cbn [skipn length nth_error]; intros E; try discriminate.
    - injection E as <- <-. repeat split; auto. lia.
    - destruct (IH l E) as [H1 [H2 H3]]. repeat split; auto. lia.
  Qed.

  Lemma in_skipn {A} n (l : list A) x : In x (skipn n l) -> In x l.
  Proof. intros H. rewrite <- (firstn_skipn n l). apply in_app_iff. now right. Qed.

  Definition step_ok (claims : list (claim F)) log (v : bverifier F) (tape : list F) (c : call F) : Prop :=
    let '(r, v', _) := step v tape c in
    r <> Panic /\
    match c with
    | CTryFinish => forall evals, r = Ok (Some evals) -> awaiting log = false /\
        exists cl, nth_error claims (count is_finish_claim log) = Some cl /\ cl_n cl = count is_finish_round log /\ length evals = cl_m cl
    | CReceive => r <> Err -> awaiting log = false /\
        forall cl, In cl (skipn (count is_finish_claim log) claims) -> (count is_finish_round log < cl_n cl)%nat
    | CFinishRound _ => r <> Err <-> awaiting log = true
    end.

  Lemma step_inv claims log v tape c : comps_total claims -> StronglySorted le (map cl_n claims) -> OInv claims log v ->
    step_ok claims log v tape c /\ (let '(r, v', _) := step v tape c in OInv claims (log ++ [(c, r)]) v').
  Proof.
    intros CT SA [I1 I2 I3 I4 I5 I6]. unfold step_ok. destruct c as [| |x]; cbn [step].
    - unfold try_finish_step. destruct (v_claims v) as [|[[c a] d] rest] eqn:EV.
      { split; [split; [discriminate|intros e E; discriminate]|].
        constructor; rewrite ?count_snoc, ?awaiting_snoc, ?Nat.add_0_r, ?EV; cbn [is_finish_claim is_finish_round is_receive]; rewrite ?Nat.add_0_r; auto. }
      cbn [map fst] in I1, I5, I6. destruct (skipn_cons _ _ _ _ I1) as [J1 [J2 J3]].
      destruct (Nat.compare_spec (cl_n c) (v_round v)) as [E|E|E].
      + assert (AW : awaiting log = false).
        { destruct (awaiting log) eqn:A; [|reflexivity]. specialize (I6 eq_refl c (or_introl eq_refl)). lia. }
        assert (IV : forall r l v', (r = Err \/ exists e, r = Ok (Some e)) -> v_claims v' = rest -> v_round v' = v_round v ->
                   v_last v' = SumV l -> OInv claims (log ++ [(CTryFinish, r)]) v').
        { intros r l v' Hr E1 E2 E3. assert (FC : is_finish_claim (CTryFinish, r) = true) by (destruct Hr as [->|[e ->]]; reflexivity).
          assert (FR : is_finish_round (CTryFinish, r) = false) by reflexivity.
          constructor; rewrite ?count_snoc, ?awaiting_snoc, ?FC, ?FR, ?E1, ?E2, ?E3; cbn [is_receive]; try lia.
          - rewrite J1. f_equal. lia.
          - exact AW.
          - intros c' H. apply I5. now right.
          - intros X. rewrite AW in X. discriminate. }
        unfold read. destruct (v_last v) as [cf|sum] eqn:EL; [rewrite I4 in AW; discriminate|].
        destruct (length tape <? cl_m c)%nat eqn:LT.
        { split; [split; [discriminate|intros e X; discriminate]|]. apply (IV Err sum); auto. }
        apply Nat.ltb_ge in LT.
        assert (NP : expected_single a c (firstn (cl_m c) tape) <> Panic).
        { unfold expected_single. destruct (collect_res _) eqn:EC; cbn [rbind]; [discriminate|discriminate|].
          exfalso. revert EC. apply collect_no_panic. intros r Hr. apply in_map_iff in Hr as [cs [<- Hcs]].
          apply (CT c cs); [exact (nth_error_In _ _ J3)|exact Hcs]. }
        destruct (expected_single a c (firstn (cl_m c) tape)) as [e| |]; [| |congruence].
        * split; [split; [discriminate|]|apply (IV (Ok (Some (firstn (cl_m c) tape))) (fsub sum e)); eauto].
          intros evals H. injection H as <-. split; [exact AW|]. exists c. repeat split; auto; [lia|]. rewrite firstn_length. lia.
        * split; [split; [discriminate|intros ev X; discriminate]|]. apply (IV Err sum); auto.
      + specialize (I5 c (or_introl eq_refl)). lia.
      + split; [split; [discriminate|intros e X; discriminate]|].
        constructor; rewrite ?count_snoc, ?awaiting_snoc, ?EV; cbn [is_finish_claim is_finish_round is_receive map fst]; rewrite ?Nat.add_0_r; auto.
    - assert (SAME : OInv claims (log ++ [(CReceive, Err)]) v).
      { constructor; rewrite ?count_snoc, ?awaiting_snoc; cbn [is_finish_claim is_finish_round is_receive]; rewrite ?Nat.add_0_r; auto. }
      unfold receive_step. destruct (v_last v) as [cf|sum] eqn:EL.
      { split; [split; [discriminate|congruence]|exact SAME]. }
      assert (LTALL : forall c a d rest, v_claims v = (c, a, d) :: rest -> cl_n c <> v_round v ->
                forall cl, In cl (skipn (count is_finish_claim log) claims) -> (v_round v < cl_n cl)%nat).
      { intros c a d rest EV NE cl Hcl. rewrite EV in I1, I5. cbn [map fst] in I1, I5. pose proof (I5 c (or_introl eq_refl)) as L0.
        rewrite <- I1 in Hcl. destruct Hcl as [<-|Hcl]; [lia|].
        rewrite <- (firstn_skipn (count is_finish_claim log) claims), <- I1, map_app in SA.
        apply strongly_sorted_app in SA as [_ [S2 _]]. cbn [map] in S2. inversion S2 as [|? ? _ HH]; subst.
        rewrite Forall_forall in HH. specialize (HH (cl_n cl) (in_map cl_n _ _ Hcl)). lia. }
      assert (GO : forall d, (forall cl, In cl (skipn (count is_finish_claim log) claims) -> (v_round v < cl_n cl)%nat) ->
        (let '(r, v', _) := match read tape d with
           | (Ok coeffs, tape') => (Ok None, mkV (v_claims v) (v_round v) (Coeffs (recover coeffs sum)), tape')
           | (_, tape') => (@Err (option (list F)), v, tape') end in
         r <> Panic /\ (r <> Err -> awaiting log = false /\
            forall cl, In cl (skipn (count is_finish_claim log) claims) -> (count is_finish_round log < cl_n cl)%nat)) /\
        (let '(r, v', _) := match read tape d with
           | (Ok coeffs, tape') => (Ok None, mkV (v_claims v) (v_round v) (Coeffs (recover coeffs sum)), tape')
           | (_, tape') => (@Err (option (list F)), v, tape') end in OInv claims (log ++ [(CReceive, r)]) v')).
      { intros d LT. unfold read. destruct (length tape <? d)%nat.
        - split; [split; [discriminate|congruence]|exact SAME].
        - split; [split; [discriminate|]|].
          + intros _. split; [exact I4|]. rewrite <- I3. exact LT.
          + constructor; rewrite ?count_snoc, ?awaiting_snoc; cbn [is_finish_claim is_finish_round is_receive v_claims v_round v_last]; rewrite ?Nat.add_0_r; auto.
            intros _ cl Hcl. apply LT. rewrite <- I1. exact Hcl. }
      destruct (v_claims v) as [|[[c a] d] rest] eqn:EV.
      + apply GO. rewrite <- I1. intros cl [].
      + destruct (Nat.eqb_spec (cl_n c) (v_round v)) as [E|NE].
        * split; [split; [discriminate|congruence]|exact SAME].
        * apply GO. now apply (LTALL c a d rest).
    - unfold finish_round_step. destruct (v_last v) as [cf|sum] eqn:EL.
      + split; [split; [discriminate|split; [intros _; exact I4|discriminate]]|].
        constructor; rewrite ?count_snoc, ?awaiting_snoc; cbn [is_finish_claim is_finish_round is_receive v_claims v_round v_last]; rewrite ?Nat.add_0_r; auto; try lia.
        intros c Hc. apply (I6 I4 c Hc).
      + split; [split; [discriminate|split; [congruence|intros X; congruence]]|].
        constructor; rewrite ?count_snoc, ?awaiting_snoc; cbn [is_finish_claim is_finish_round is_receive]; rewrite ?Nat.add_0_r; auto.
        now rewrite EL.
  Qed.

  Lemma calls_inv claims : comps_total claims -> StronglySorted le (map cl_n claims) ->
    forall cs log v tape, OInv claims log v ->
      let '(log', v', _) := calls v tape cs in OInv claims (log ++ log') v'.
  Proof.
    intros CT SA cs. induction cs as [|c cs IH]; intros log v tape I; cbn [calls].
    - now rewrite app_nil_r.
    - destruct (step_inv claims log v tape c CT SA I) as [_ SI]. destruct (step v tape c) as [[r v'] tape'].
      specialize (IH (log ++ [(c, r)]) v' tape' SI). destruct (calls v' tape' cs) as [[log' v''] tape''].
      rewrite <- app_assoc in IH. exact IH.
  Qed.

  (** Any sequence of calls [cs] on a verifier, however they turn out, followed by a call [c]: it does
      not panic; a claim is finished only between rounds, the next in order, in the round equal to its
      number of variables; a round proof is received only between rounds and when all claims of this
      round are finished; a round can be finished exactly after receiving its proof. *)
  Theorem front_loaded_call_order (claims : list (claim F)) coeffs sum v : comps_total claims ->
    new_prebatched coeffs sum claims = Ok v ->
    forall tape cs c, let '(log, v', tape') := calls v tape cs in
      let '(r, _, _) := step v' tape' c in
      r <> Panic /\
      match c with
      | CTryFinish => forall evals, r = Ok (Some evals) -> awaiting log = false /\
          exists cl, nth_error claims (count is_finish_claim log) = Some cl /\ cl_n cl = count is_finish_round log /\ length evals = cl_m cl
      | CReceive => r <> Err -> awaiting log = false /\
          forall cl, In cl (skipn (count is_finish_claim log) claims) -> (count is_finish_round log < cl_n cl)%nat
      | CFinishRound _ => r <> Err <-> awaiting log = true
      end.
  Proof.
    intros CT EV tape cs c. unfold new_prebatched in EV.
    destruct (is_sorted_ascending (map cl_n claims)) eqn:SO; cbn [negb] in EV; [|discriminate].
    destruct (Nat.eqb_spec (length coeffs) (length claims)) as [LE|]; cbn [negb] in EV; [|discriminate].
    injection EV as <-. apply sorted_asc in SO.
    assert (I0 : OInv claims [] (mkV (with_degrees claims coeffs) 0 (SumV sum))).
    { constructor; cbn [count filter length skipn v_claims v_round v_last]; try (intros; lia); auto.
      - apply with_degrees_claims. lia.
      - unfold count. cbn. lia. }
    pose proof (calls_inv claims CT SO cs [] _ tape I0) as CI. destruct (calls _ tape cs) as [[log v'] tape'].
    cbn [app] in CI. exact (proj1 (step_inv claims log v' tape' c CT SO CI)).
  Qed.

  (** Finishing succeeds only if every claim was taken off the queue and no round is open. *)
  Theorem front_loaded_finish (claims : list (claim F)) coeffs sum v : comps_total claims ->
    new_prebatched coeffs sum claims = Ok v ->
    forall tape cs, let '(log, v', _) := calls v tape cs in
      bv_finish v' <> Panic /\
      (bv_finish v' = Ok tt -> awaiting log = false /\ count is_finish_claim log = length claims /\
         forall cl, In cl claims -> (cl_n cl <= count is_finish_round log)%nat).
  Proof.
    intros CT EV tape cs. 
    assert (G : forall cs, let '(log, v', _) := calls v tape cs in OInv claims log v' /\
               forall cl, In cl (firstn (count is_finish_claim log) claims) -> (cl_n cl <= count is_finish_round log)%nat).
    2:{ specialize (G cs). destruct (calls v tape cs) as [[log v'] tape']. destruct G as [[I1 I2 I3 I4 I5 I6] G].
        unfold bv_finish. destruct (v_claims v') as [|x rest] eqn:EC; [|split; [discriminate|intros X; discriminate X]].
        destruct (v_last v') as [cf|s]; [split; [discriminate|intros X; discriminate X]|].
        destruct (feqb s 0); cbn [negb]; [|split; [discriminate|intros X; discriminate X]].
        split; [discriminate|]. intros _. cbn [map] in I1.
        assert (EQ : count is_finish_claim log = length claims).
        { symmetry in I1. apply (f_equal (@length _)) in I1. rewrite skipn_length in I1. cbn [length] in I1. lia. }
        repeat split; auto. rewrite EQ, firstn_all in G. exact G. }
    unfold new_prebatched in EV.
    destruct (is_sorted_ascending (map cl_n claims)) eqn:SO; cbn [negb] in EV; [|discriminate].
    destruct (Nat.eqb_spec (length coeffs) (length claims)) as [LE|]; cbn [negb] in EV; [|discriminate].
    injection EV as <-. apply sorted_asc in SO.
    assert (I0 : OInv claims [] (mkV (with_degrees claims coeffs) 0 (SumV sum))).
    { constructor; cbn [count filter length skipn v_claims v_round v_last]; try (intros; lia); auto.
      - apply with_degrees_claims. lia.
      - unfold count. cbn. lia. }
    clear cs. 
    assert (GEN : forall cs log v tape, OInv claims log v ->
       (forall cl, In cl (firstn (count is_finish_claim log) claims) -> (cl_n cl <= count is_finish_round log)%nat) ->
       let '(log', v', _) := calls v tape cs in OInv claims (log ++ log') v' /\
         forall cl, In cl (firstn (count is_finish_claim (log ++ log')) claims) -> (cl_n cl <= count is_finish_round (log ++ log'))%nat).
    { intros cs. induction cs as [|c cs IH]; intros log v tp I HL; cbn [calls].
      - rewrite app_nil_r. now split.
      - destruct (step_inv claims log v tp c CT SO I) as [SK SI]. unfold step_ok in SK.
        destruct (step v tp c) as [[r v'] tp'] eqn:ES.
        specialize (IH (log ++ [(c, r)]) v' tp' SI). destruct (calls v' tp' cs) as [[log' v''] tp''].
        rewrite <- app_assoc in IH. apply IH. clear IH. intros cl. rewrite !count_snoc.
        destruct (is_finish_claim (c, r)) eqn:FC.
        2:{ rewrite Nat.add_0_r. intros H. specialize (HL cl H). lia. }
        (* a claim was removed: it was the first of the queue, in its round *)
        destruct c as [| |x]; try discriminate. cbn [step] in ES. unfold try_finish_step in ES.
        pose proof I as [J1 J2 J3 J4 J5 J6].
        destruct (v_claims v) as [|[[c a] d] rest] eqn:EVC; [injection ES as <- _ _; discriminate|].
        cbn [map fst] in J1. destruct (skipn_cons _ _ _ _ J1) as [K1 [K2 K3]].
        assert (EN : cl_n c = v_round v).
        { destruct (Nat.compare_spec (cl_n c) (v_round v)) as [E|E|E]; [exact E| |]; injection ES as <- _ _; discriminate. }
        rewrite Nat.add_1_r. intros H.
        assert (FE : firstn (S (count is_finish_claim log)) claims = firstn (count is_finish_claim log) claims ++ [c]).
        { clear -K3. revert K3. generalize (count is_finish_claim log) as n. intros n. revert claims.
          induction n as [|n IH]; intros [|y l] E; cbn [nth_error] in E; try discriminate.
          - injection E as ->. reflexivity.
          - cbn [firstn app]. f_equal. now apply IH. }
        rewrite FE in H. apply in_app_iff in H as [H|[<-|[]]]; [specialize (HL cl H); lia|]. lia. }
    intros cs. specialize (GEN cs [] _ tape I0). cbn [app] in GEN. apply GEN. intros cl [].
  Qed.

  (** The methods, as used by [run], do what the calls do. *)
  Theorem try_finish_step_run (v : bverifier F) tape cs :
    vrun (try_finish_claim v) tape cs =
    match try_finish_step v tape with
    | (Ok r, v', tape') => Ok (r, v', tape', cs)
    | (Err, _, _) => Err
    | (Panic, _, _) => Panic
    end.
  Proof.
    unfold try_finish_claim, try_finish_step. destruct (v_claims v) as [|[[c a] d] rest]; [reflexivity|].
    destruct (cl_n c ?= v_round v)%nat; [|reflexivity|reflexivity]. cbn [vbind vrun]. unfold read.
    destruct (length tape <? cl_m c)%nat; [reflexivity|]. destruct (v_last v); [reflexivity|].
    destruct (expected_single a c (firstn (cl_m c) tape)); reflexivity.
  Qed.

  Theorem receive_step_run (v : bverifier F) tape cs :
    vrun (receive_round_proof v) tape cs =
    match receive_step v tape with
    | (Ok _, v', tape') => Ok (v', tape', cs)
    | (Err, _, _) => Err
    | (Panic, _, _) => Panic
    end.
  Proof.
    unfold receive_round_proof, receive_step. destruct (v_last v); [reflexivity|].
    destruct (v_claims v) as [|[[c a] d] rest].
    - cbn [vbind vrun]. unfold read. destruct (length tape <? 0)%nat; reflexivity.
    - destruct (cl_n c =? v_round v)%nat; [reflexivity|]. cbn [vbind vrun]. unfold read. destruct (length tape <? d)%nat; reflexivity.
  Qed.

  Theorem finish_round_step_run (v : bverifier F) x :
    finish_round v x = match finish_round_step v x with (Ok _, v') => Ok v' | (Err, _) => Err | (Panic, _) => Panic end.
  Proof. unfold finish_round, finish_round_step. now destruct (v_last v). Qed.

  (** Neither verifier panics on any proof and challenges. *)
  Lemma expected_safe a (c : claim F) evals : (forall cs q, In cs (cl_sums c) -> c_eval (fst cs) q <> Panic) ->
    expected_single a c evals <> Panic.
  Proof.
    intros H. unfold expected_single. destruct (collect_res _) eqn:EC; cbn [rbind]; [discriminate|discriminate|].
    exfalso. revert EC. apply collect_no_panic. intros r Hr. apply in_map_iff in Hr as [cs [<- Hcs]]. now apply H.
  Qed.

  Definition RInv (claims : list (claim F)) (n : nat) (v : bverifier F) : Prop :=
    (forall c, In c (map (fun x => fst (fst x)) (v_claims v)) -> In c claims /\ (n <= cl_n c)%nat) /\
    StronglySorted le (map cl_n (map (fun x => fst (fst x)) (v_claims v))) /\
    v_round v = n /\ exists s, v_last v = SumV s.

  Lemma finish_claims_safe claims n : comps_total claims -> forall fuel v evals, RInv claims n v -> (length (v_claims v) < fuel)%nat ->
    safe (fun r => RInv claims n (fst r) /\ forall c, In c (map (fun x => fst (fst x)) (v_claims (fst r))) -> (n < cl_n c)%nat)
      (finish_claims fuel v evals).
  Proof.
    intros CT fuel. induction fuel as [|fuel IH]; intros v evals I HF; [lia|]. cbn [finish_claims].
    unfold try_finish_claim. pose proof I as [I1 [I2 [I3 [s I4]]]].
    destruct (v_claims v) as [|[[c a] d] rest] eqn:EV.
    { cbn [vbind safe fst]. split; auto. rewrite EV. intros c []. }
    rewrite I3. destruct (Nat.compare_spec (cl_n c) n) as [E|E|E].
    - cbn [vbind safe]. intros l Hl. rewrite I4.
      pose proof (expected_safe a c l (fun cs q => CT c cs q (proj1 (I1 c (or_introl eq_refl))))) as NP.
      destruct (expected_single a c l) as [e| |]; cbn [vbind safe]; [|exact Logic.I|congruence].
      apply IH; [|cbn [v_claims]; cbn [length] in HF; lia]. unfold RInv. cbn [v_claims v_round v_last].
      split; [intros x Hx; apply I1; now right|]. split; [cbn [map] in I2; now inversion I2|]. split; [reflexivity|eauto].
    - specialize (I1 c (or_introl eq_refl)). lia.
    - cbn [vbind safe fst]. split; auto. rewrite EV. cbn [map fst] in I1, I2. inversion I2 as [|? ? _ HH]; subst.
      rewrite Forall_forall in HH. intros x [<-|Hx]; [exact E|]. specialize (HH _ (in_map cl_n _ _ Hx)). lia.
  Qed.

  Lemma run_rounds_safe claims : comps_total claims -> forall k n v chal evals, RInv claims n v ->
    safe (fun r => exists n', RInv claims n' (fst (fst r))) (run_rounds k v chal evals).
  Proof.
    intros CT k. induction k as [|k IH]; intros n v chal evals I; cbn [run_rounds]; [cbn [safe fst]; eauto|].
    eapply safe_bind; [apply (finish_claims_safe claims n CT); [exact I|lia]|]. intros [v1 evals1] [J1 J2]. cbn [fst] in J1, J2.
    pose proof J1 as [K1 [K2 [K3 [s K4]]]]. unfold receive_round_proof. rewrite K4.
    assert (G : forall d, safe (fun r => exists n' : nat, RInv claims n' (fst (fst r)))
              (vbind (vbind (vread d) (fun coeffs => VRet (Ok (mkV (v_claims v1) (v_round v1) (Coeffs (recover coeffs s))))))
                 (fun v => vbind vsample (fun challenge => vbind (VRet (finish_round v challenge)) (fun v => run_rounds k v (chal ++ [challenge]) evals1))))).
    { intros d. cbn [vbind safe]. intros l Hl x. cbn [finish_round v_last v_claims v_round vbind]. apply (IH (S n)).
      unfold RInv. cbn [v_claims v_round v_last]. split; [intros c Hc; split; [now apply K1|now apply J2]|]. split; [exact K2|]. split; [lia|eauto]. }
    destruct (v_claims v1) as [|[[c a] d] rest] eqn:EV.
    - apply (G 0%nat).
    - destruct (Nat.eqb_spec (cl_n c) (v_round v1)) as [E|_].
      + specialize (J2 c (or_introl eq_refl)). lia.
      + apply (G d).
  Qed.

  Theorem front_loaded_never_panics (claims : list (claim F)) : comps_total claims ->
    forall tape cs, vrun (get v <- bv_new claims; bv_run v) tape cs <> Panic.
  Proof.
    intros CT. apply (safe_vrun F (fun _ => True)).
    assert (RUN : forall coeffs sum v, new_prebatched coeffs sum claims = Ok v -> safe (fun _ => True) (bv_run v)).
    { intros coeffs sum v EV. unfold new_prebatched in EV.
      destruct (is_sorted_ascending (map cl_n claims)) eqn:SO; cbn [negb] in EV; [|discriminate].
      destruct (Nat.eqb_spec (length coeffs) (length claims)) as [LE|]; cbn [negb] in EV; [|discriminate].
      injection EV as <-. apply sorted_asc in SO. unfold bv_run.
      eapply safe_bind; [eapply (run_rounds_safe claims CT _ 0)|].
      - unfold RInv. cbn [v_claims v_round v_last]. rewrite with_degrees_claims by lia.
        split; [intros c Hc; split; [exact Hc|lia]|]. split; [exact SO|]. split; [reflexivity|eauto].
      - intros [[v chal] evals] [n I]. cbn [fst] in I.
        eapply safe_bind; [apply (finish_claims_safe claims n CT); [exact I|lia]|]. intros [v1 evals1] [J1 J2]. cbn [fst] in *.
        apply (safe_bind F (fun _ => True)); [|intros; exact Logic.I]. apply safe_ret; auto.
        unfold bv_finish. destruct (v_claims v1); [|discriminate]. destruct (v_last v1); [discriminate|].
        destruct (negb _); discriminate. }
    unfold bv_new. apply (safe_bind F (fun v => exists coeffs sum, new_prebatched coeffs sum claims = Ok v)).
    - eapply safe_bind; [apply safe_vsamples|]. intros coeffs Hc. apply safe_ret; [|intros v Hv; eauto].
      unfold new_prebatched. destruct (negb _); [discriminate|]. destruct (negb _); discriminate.
    - intros v [coeffs [sum EV]]. now apply (RUN coeffs sum).
  Qed.

  Theorem batch_verify_never_panics (o : order) (claims : list (claim F)) : comps_total claims ->
    forall tape cs, vrun (batch_verify o claims) tape cs <> Panic.
  Proof.
    intros CT. apply (safe_vrun F (fun _ => True)). unfold batch_verify. destruct (negb _); [exact Logic.I|].
    assert (ACT : forall n pend coeffs chal sum deg, safe (fun _ => True) (activate (F:=F) n pend coeffs chal sum deg)).
    { intros n pend. induction pend as [|c pend IH]; intros; cbn [activate]; [exact Logic.I|].
      destruct (negb _); [exact Logic.I|]. cbn [safe]. intros x. apply IH. }
    assert (RO : forall n st, safe (fun _ => True) (rounds (F:=F) n st)).
    { induction n as [|n IH]; intros st; cbn [rounds]; [exact Logic.I|]. eapply safe_bind; [apply ACT|]. intros st' _.
      cbn [vbind safe]. intros l Hl x. apply IH. }
    eapply safe_bind; [apply RO|]. intros st _.
    apply (safe_bind F (fun _ => True)).
    - generalize (b_coeffs st) (b_sum st). induction (b_pending st) as [|c pend IH]; intros coeffs sum; cbn [activate_rest safe]; [exact Logic.I|].
      intros x. apply IH.
    - intros [coeffs sum] _. apply (safe_bind F (fun _ => True)).
      + clear CT. induction claims as [|c claims IH]; cbn [read_evals]; [exact Logic.I|]. cbn [vbind safe]. intros l Hl.
        eapply safe_bind; [apply IH|]. intros; exact Logic.I.
      + intros evals _. apply (safe_bind F (fun _ => True)).
        * apply safe_ret; auto. revert coeffs evals CT. clear. induction claims as [|c claims IH]; intros [|a coeffs] [|e evals] CT; cbn [expected_multi]; try discriminate.
          pose proof (expected_safe a c e (fun cs q => CT c cs q (or_introl eq_refl))) as N1.
          destruct (expected_single a c e); cbn [rbind]; [|discriminate|congruence].
          assert (N2 : expected_multi coeffs claims evals <> Panic) by (apply IH; intros x cs q Hx; apply CT; now right).
          destruct (expected_multi coeffs claims evals); cbn [rbind]; [discriminate|discriminate|congruence].
        * intros e _. destruct (negb _); exact Logic.I.
  Qed.
End Props.

(* ------------------------------------------------------------------ *)
(** Concrete instances, over the field with 16 elements. *)
Section ProductComposition.
  Variable F : field.
  Add Ring Fring2 : (f_ring F).
  Local Open Scope fld_scope.

  (** the composition X * Y *)
  Definition product2 : comp F :=
    mkComp 2 2 (fun q => match q with [x; y] => Ok (x * y) | _ => Err end)
               (fun q => match q with [x; y] => Ok (x * y) | _ => Err end) [true; true].

  Lemma product2_ok : comp_ok product2.
  Proof.
    split; [|split; [|split]].
    - intros [|x [|y [|z q]]] H; cbn in *; try reflexivity. congruence.
    - intros [|x [|y [|z q]]] H; cbn in *; try discriminate. eexists. reflexivity.
    - intros [|a0 [|a1 [|z a]]] [|b0 [|b1 [|z' b]]] Ha Hb; try discriminate.
      exists [a0 * a1; a0 * b1 + a1 * b0; b0 * b1]. split; [reflexivity|]. split; [|reflexivity].
      intros t. rewrite !peval_cons, peval_nil. cbn. f_equal. ring.
    - split; [reflexivity|]. intros [|x [|y [|z q]]] [|x' [|y' [|z' q']]] Hq Hq' A; cbn in Hq, Hq'; try discriminate.
      pose proof (A 0%nat eq_refl) as E0. pose proof (A 1%nat eq_refl) as E1. cbn in E0, E1. subst. auto.
  Qed.

  (** a constant *)
  Definition constant_comp (k : F) : comp F :=
    mkComp 1 0 (fun q => match q with [_] => Ok k | _ => Err end)
               (fun q => match q with [_] => Ok k | _ => Err end) [false].

  Lemma constant_comp_ok k : comp_ok (constant_comp k).
  Proof.
    split; [|split; [|split]].
    - intros [|x [|y q]] H; cbn in *; try reflexivity. congruence.
    - intros [|x [|y q]] H; cbn in *; try discriminate. eexists. reflexivity.
    - intros [|a0 [|z a]] [|b0 [|z' b]] Ha Hb; try discriminate.
      exists [k]. split; [reflexivity|]. split; [|reflexivity].
      intros t. rewrite !peval_cons, peval_nil. cbn. f_equal. ring.
    - split; [reflexivity|]. intros [|x [|z q]] [|x' [|z' q']] Hq Hq' A; cbn in Hq, Hq'; try discriminate. auto.
  Qed.

  Lemma constant_accepts o k e a x :
    vrun (batch_verify o [mkClaim 1 1 [(constant_comp k, k)]]) [e] [a; x] = Ok (([x], [[e]]), [], []).
  Proof.
    cbn. unfold interpolate_round_proof, recover, claim_sum, batch_weighted_value, inner_product_unchecked. cbn.
    match goal with |- context [feqb ?u ?v] => replace u with v by ring end. rewrite feqb_refl. cbn. now destruct o.
  Qed.

  Lemma constant_rejects o k x tape : k <> 0 ->
    vrun (batch_verify o [mkClaim 1 1 [(constant_comp k, 0)]]) tape [1; x] = Err.
  Proof.
    intros K. cbn. destruct (length tape <=? 0)%nat eqn:E; [reflexivity|].
    destruct tape as [|e tape]; [discriminate|]. cbn.
    unfold interpolate_round_proof, recover, claim_sum, batch_weighted_value, inner_product_unchecked. cbn.
    match goal with |- context [feqb ?u ?v] => replace u with (@f0 F) by ring; replace v with k by ring end.
    destruct (feqb_spec F (@f0 F) k) as [X|_]; [congruence|reflexivity].
  Qed.
End ProductComposition.

Require Import Coq.NArith.NArith.

(** Constant compositions are outside the theorems: the round message is empty, the claimed sum is
    taken as the constant round polynomial, and its two values never add up to it.  The verifier
    accepts a false claim for every challenge, and rejects the true one. *)
Definition constant_inst (sum : X16) : inst X16 := (mkClaim 1 1 [(constant_comp X16 (el 5%N), sum)], [fun x => nth x (els [3; 7]%N) (el 0%N)]).

Theorem constant_composition_refuted :
  inst_ok (constant_inst (el 5%N)) /\ ~ claim_true (constant_inst (el 5%N)) /\ claim_true (constant_inst (el 0%N)) /\
  (forall o a x, exists evals, vrun (batch_verify o [fst (constant_inst (el 5%N))]) evals [a; x] = Ok (([x], [evals]), [], []) /\
     truthful o [constant_inst (el 5%N)] ([x], [evals])) /\
  (forall o x tape, vrun (batch_verify o [fst (constant_inst (el 0%N))]) tape [el 1%N; x] = Err).
Proof.
  split; [|split; [|split; [|split]]].
  - split; [reflexivity|]. intros cs [<-|[]]. split; [apply constant_comp_ok|reflexivity].
  - intros H. specialize (H _ (or_introl eq_refl)). apply (f_equal bits) in H. vm_compute in H. discriminate H.
  - intros cs [<-|[]]. vm_compute. reflexivity.
  - intros o a x. exists [mle (fun x => nth x (els [3; 7]%N) (el 0%N)) [x]]. split.
    + apply constant_accepts.
    + unfold truthful. destruct o; reflexivity.
  - intros o x tape. apply constant_rejects. intros E. apply (f_equal bits) in E. vm_compute in E. discriminate E.
Qed.

(** The hypotheses of the soundness theorems are met by a false claim about the sum of a product, and
    the bound is not void: a prover that sends the true low coefficients is accepted when the round
    challenge is 0. *)
Definition false_inst : inst X16 :=
  (mkClaim 1 2 [(product2 X16, el 9%N)], [fun x => nth x (els [3; 7]%N) (el 0%N); fun x => nth x (els [1; 6]%N) (el 0%N)]).

Definition cheat (hist : list X16) (sent : nat) : list X16 :=
  match sent with
  | O => map (fmul (el 5%N)) [fmul (el 3%N) (el 1%N);
           fadd (fmul (el 3%N) (fadd (el 1%N) (el 6%N))) (fmul (el 1%N) (fadd (el 3%N) (el 7%N)))]
  | _ => els [3; 1]%N
  end.

Example sumcheck_soundness_ex :
  Forall inst_ok [false_inst] /\ some_degree [false_inst] /\ ~ claim_true false_inst /\
  n_composites [false_inst] = 1 /\ max_vars [false_inst] = 1 /\ max_degree [false_inst] = 2 /\
  forall o, exists out, vplay (batch_verify o [fst false_inst]) cheat [] 0 (els [5; 0]%N) = Ok out /\ truthful o [false_inst] out.
Proof.
  split; [|split; [|split; [|repeat split]]].
  - constructor; [|constructor]. split; [reflexivity|]. intros cs [<-|[]]. split; [apply product2_ok|reflexivity].
  - right. exists false_inst. repeat split; [now left|]. cbn. lia.
  - intros H. specialize (H _ (or_introl eq_refl)). apply (f_equal bits) in H. vm_compute in H. discriminate H.
  - intros [|]; (eexists; split; [vm_compute; reflexivity|]); vm_compute; reflexivity.
Qed.

Example front_loaded_soundness_ex :
  exists v, new_prebatched (els [5]%N) (fmul (el 5%N) (el 9%N)) [fst false_inst] = Ok v /\
    fmul (el 5%N) (el 9%N) <> weighted_true_sums [false_inst] (els [5]%N) /\
    forall o, exists out, vplay (bv_run v) cheat [] 0 (els [0]%N) = Ok out /\ truthful_front o [false_inst] out.
Proof.
  eexists. split; [reflexivity|]. split.
  - intros H. apply (f_equal bits) in H. vm_compute in H. discriminate H.
  - intros [|]; (eexists; split; [vm_compute; reflexivity|]); vm_compute; reflexivity.
Qed.

Example round_proof_roundtrip_ex :
  map bits (recover (rc_truncate (els [3; 7; 9; 2]%N)) (fadd (peval (els [3; 7; 9; 2]%N) f0) (peval (els [3; 7; 9; 2]%N) f1))) = [3; 7; 9; 2]%N.
Proof. vm_compute. reflexivity. Qed.

(** With a single coefficient the round trip fails, and the recovered polynomial has the wrong sum. *)
Theorem round_proof_constant_refuted : exists (c : list X16) (sum : X16),
  length c = 1%nat /\ recover (rc_truncate c) (fadd (peval c f0) (peval c f1)) <> c /\
  fadd (peval (recover [] sum) f0) (peval (recover [] sum) f1) <> sum.
Proof.
  exists (els [5]%N), (el 5%N). split; [reflexivity|]. split.
  - intros H. apply (f_equal (map bits)) in H. vm_compute in H. discriminate H.
  - intros H. apply (f_equal bits) in H. vm_compute in H. discriminate H.
Qed.

(** Two claims, a call sequence that finishes both, and out-of-order calls that are refused. *)
Definition two_claims : list (claim X16) := [fst false_inst; mkClaim 2 2 [(product2 X16, el 1%N)]].
Definition trace (cs : list (call X16)) (tape : list X16) : option (list (res (option (list N)))) :=
  match new_prebatched (els [1; 2]%N) (el 3%N) two_claims with
  | Ok v => Some (map (fun e => match snd e with
                                | Ok (Some l) => Ok (Some (map bits l))
                                | Ok None => Ok None
                                | Err => Err
                                | Panic => Panic
                                end) (fst (fst (calls v tape cs))))
  | _ => None
  end.

Example front_loaded_calls_ex :
  comps_total X16 two_claims /\
  trace [CTryFinish; CFinishRound (el 4%N); CReceive; CReceive; CFinishRound (el 4%N); CReceive; CTryFinish; CTryFinish; CReceive; CFinishRound (el 7%N); CTryFinish]
        (els [1; 2; 3; 4; 5; 6; 7; 8]%N) =
  Some [Ok None; Err; Ok None; Err; Ok None; Err; Ok (Some [3; 4]%N); Ok None; Ok None; Ok None; Ok (Some [7; 8]%N)].
Proof.
  split; [|vm_compute; reflexivity].
  intros c cs q [<-|[<-|[]]] [<-|[]]; destruct q as [|x [|y [|z q]]]; discriminate.
Qed.

(** A failed [try_finish_claim] has already removed the claim.  If the caller goes on, [finish]
    succeeds although the claim was never checked. *)
Theorem dropped_claim_refuted : exists (v : bverifier X16) (claims : list (claim X16)),
  new_prebatched [el 1%N] (el 0%N) claims = Ok v /\ length claims = 1%nat /\
  let '(log, v', _) := calls v [] [CTryFinish] in
  map snd log = [Err] /\ bv_finish v' = Ok tt.
Proof.
  eexists; exists [mkClaim 0 1 [(constant_comp X16 (el 5%N), el 0%N)]]. split; [reflexivity|]. split; [reflexivity|].
  vm_compute. split; reflexivity.
Qed.
