(** C40: the reduction from equality-indicator sumchecks to sumchecks. *)
Require Import Coq.setoid_ring.Ring Coq.Arith.Arith Coq.Lists.List Coq.Bool.Bool Coq.NArith.NArith Coq.Sorting.Sorted Lia.
From Verif Require Import Base.Fld Base.Lists Base.Sums Base.Poly Math.MleSpec Math.UnivariateModel Protocol.Proto Protocol.Soundness
  Field.TowerProofs Field.Examples Sumcheck.SumcheckModel Sumcheck.SumcheckSpec Sumcheck.SumcheckProofs Sumcheck.SumcheckSound
  Sumcheck.BatchProverModel Sumcheck.BatchProverSpec Sumcheck.BatchProverProofs Sumcheck.SumcheckProps Sumcheck.FoldProofs Sumcheck.EqIndModel.
Import ListNotations.

Section Spec.
  Variable F : field.
  Local Open Scope fld_scope.

  (** the last [n] coordinates *)
  Definition lastn (n : nat) (r : list F) : list F := skipn (length r - n) r.

  (** The sums claimed by an eq-ind claim at the point [r]: over the hypercube, of the composition times the
      equality indicator of the last coordinates of [r]. *)
  Definition eq_claim_true (r : list F) (i : inst F) : Prop :=
    forall cs, In cs (cl_sums (fst i)) ->
      snd cs = sumn (2 ^ cl_n (fst i)) (fun x =>
        val (c_eval (fst cs) (map (fun m => m x) (snd i))) * eqw (lastn (cl_n (fst i)) r) x).

  (** The claimed evaluations are those of the multilinears at the last challenges. *)
  Definition truthful_last (insts : list (inst F)) (out : list F * list (list F)) : Prop :=
    snd out = map (fun i => mvals i (lastn (cl_n (fst i)) (fst out))) insts.
End Spec.
Arguments lastn {_} _ _.
Arguments eq_claim_true {_} _ _.
Arguments truthful_last {_} _ _.

Section Props.
  Variable F : field.
  Local Open Scope fld_scope.
  Add Ring Fring : (f_ring F).

  Lemma eq_fn_spec (x y : F) : eq_fn x y = x * y + (1 - x) * (1 - y).
  Proof.
    unfold eq_fn. destruct (feqb_spec F (1 + 1) 0) as [E|_]; [|reflexivity].
    assert (Z : forall z : F, z + z = 0) by (intros z; replace (z + z) with (z * (1 + 1)) by ring; rewrite E; ring).
    transitivity (x + y + 1 + ((x * y - (x + y)) + (x * y - (x + y)))); [rewrite Z; ring|]. ring.
  Qed.

  (** the equality indicator as a polynomial *)
  Fixpoint eqp (r q : list F) : F :=
    match r, q with a :: r', b :: q' => (a * b + (1 - a) * (1 - b)) * eqp r' q' | _, _ => 1 end.

  Lemma mle_eqw (r q : list F) : length q = length r -> mle (eqw r) q = eqp r q.
  Proof.
    revert q. induction r as [|a r IH]; intros [|b q] L; try discriminate; [rewrite mle_nil; reflexivity|].
    rewrite mle_cons. cbn [eqp]. injection L as L. rewrite <- IH by auto.
    transitivity (mle (fun x => (a * b + (1 - a) * (1 - b)) * eqw r x + 0 * 0) q).
    - apply mle_ext. intros x _. cbn [eqw]. rewrite odd_double0, div_double0, odd_double, div_double by lia. cbn [Nat.eqb]. ring.
    - rewrite (mle_lin F (eqw r) (fun _ => 0)). ring.
  Qed.

  Lemma lastn_length n (r : list F) : length (lastn n r) = Nat.min n (length r).
  Proof. unfold lastn. rewrite skipn_length. lia. Qed.

  Lemma lastn_S n (r : list F) x : (n < length r)%nat -> nth_error r (length r - 1 - n) = Some x -> lastn (S n) r = x :: lastn n r.
  Proof.
    intros L H. unfold lastn. replace (length r - n)%nat with (S (length r - 1 - n)) by lia.
    replace (length r - S n)%nat with (length r - 1 - n)%nat by lia.
    revert H. generalize (length r - 1 - n)%nat as k. clear. intros k. revert r.
    induction k as [|k IH]; intros [|y r] H; try discriminate; cbn in *; [now injection H as ->|]. now apply IH.
  Qed.

  Definition E (chal eqc : list F) (n : nat) : F := eqp (lastn n chal) (lastn n eqc).

  Lemma advance_ok chal eqc n : length eqc = length chal -> forall fuel last, (last <= length chal)%nat ->
    (Nat.min n (length chal) - last <= fuel)%nat ->
    advance fuel n chal eqc (E chal eqc last, last) =
      Ok (E chal eqc (Nat.max last (Nat.min n (length chal))), Nat.max last (Nat.min n (length chal))).
  Proof.
    intros L. induction fuel as [|fuel IH]; intros last HL HF.
    - cbn [advance]. destruct (Nat.ltb_spec last n), (Nat.ltb_spec last (length chal)); cbn [andb]; try lia;
        rewrite Nat.max_l by lia; reflexivity.
    - cbn [advance]. destruct (Nat.ltb_spec last n), (Nat.ltb_spec last (length chal)); cbn [andb];
        try (rewrite Nat.max_l by lia; reflexivity).
      destruct (nth_error chal (length chal - 1 - last)) as [c|] eqn:E1; [|apply nth_error_None in E1; lia].
      destruct (nth_error eqc (length eqc - 1 - last)) as [r|] eqn:E2; [|apply nth_error_None in E2; lia].
      cbn [of_opt rbind].
      replace (E chal eqc last * eq_fn c r) with (E chal eqc (S last)).
      + rewrite IH by lia. replace (Nat.max (S last) _) with (Nat.max last (Nat.min n (length chal))) by lia. reflexivity.
      + unfold E. rewrite (lastn_S last chal c), (lastn_S last eqc r) by (auto; lia). cbn [eqp]. rewrite eq_fn_spec. ring.
  Qed.

  (** what the loop checks for a claim *)
  Definition entry_ok (chal eqc : list F) (ce : claim F * list F) : Prop :=
    length (snd ce) = (cl_m (fst ce) + 1)%nat /\
    last (snd ce) 0 = mle (eqw (lastn (cl_n (fst ce)) eqc)) (lastn (cl_n (fst ce)) chal).

  Lemma eqp_sym r q : eqp r q = eqp q r.
  Proof. revert q. induction r as [|a r IH]; intros [|b q]; cbn [eqp]; auto. rewrite IH. ring. Qed.

  Lemma E_mle chal eqc n : length eqc = length chal -> E chal eqc n = mle (eqw (lastn n eqc)) (lastn n chal).
  Proof. intros L. rewrite mle_eqw by (rewrite !lastn_length; lia). apply eqp_sym. Qed.

  Lemma loop_ok chal eqc : length eqc = length chal -> forall l last, (last <= length chal)%nat ->
    (forall ce, In ce l -> (cl_n (fst ce) <= length chal)%nat) ->
    match outputs_loop chal eqc (E chal eqc last, last) l with
    | Ok r => StronglySorted le (last :: map (fun ce => cl_n (fst ce)) l) /\ Forall (entry_ok chal eqc) l /\
              r = map (fun ce => removelast (snd ce)) l
    | Err => ~ (StronglySorted le (last :: map (fun ce => cl_n (fst ce)) l) /\ Forall (entry_ok chal eqc) l)
    | Panic => False
    end.
  Proof.
    intros L. induction l as [|[c evals] l IH]; intros last HL HN; cbn [outputs_loop map fst snd].
    - split; [repeat constructor|]. split; [constructor|reflexivity].
    - destruct (Nat.eqb_spec (cl_m c + 1) (length evals)) as [EM|EM]; cbn [negb].
      2:{ intros [_ FA]. inversion FA as [|? ? [A _]]; subst. cbn [snd fst] in A. lia. }
      destruct (Nat.ltb_spec (cl_n c) last) as [LT|GE].
      { intros [SS _]. inversion SS as [|? ? _ FL]; subst. inversion FL; subst. lia. }
      specialize (HN (c, evals) (or_introl eq_refl)) as HNc. cbn [fst] in HNc.
      rewrite advance_ok by lia. cbn [rbind fst].
      replace (Nat.max last (Nat.min (cl_n c) (length chal))) with (cl_n c) by lia.
      destruct (feqb_spec F (E chal eqc (cl_n c)) (List.last evals 0)) as [EQ|NE]; cbn [negb].
      2:{ intros [_ FA]. inversion FA as [|? ? [_ B]]; subst. cbn [snd fst] in B. apply NE. rewrite B. now apply E_mle. }
      specialize (IH (cl_n c) HNc (fun ce H => HN ce (or_intror H))).
      destruct (outputs_loop chal eqc (E chal eqc (cl_n c), cl_n c) l) as [r| |]; cbn [rbind]; auto.
      + destruct IH as [SS [FA ->]]. split; [|split; [|reflexivity]].
        * constructor; auto. inversion SS as [|? ? _ FL]; subst. constructor; [lia|]. eapply Forall_impl; [|exact FL]. intros; lia.
        * constructor; auto. split; cbn [fst snd]; [lia|]. rewrite <- E_mle by auto. auto.
      + intros [SS FA]. apply IH. inversion SS; subst. inversion FA; subst. auto.
  Qed.

  Lemma combine_split_eq {A B} (l : list (A * B)) : combine (map fst l) (map snd l) = l.
  Proof. induction l as [|[a b] l IH]; cbn; [reflexivity|]. now rewrite IH. Qed.

  (** [verify_sumcheck_outputs] accepts exactly when the claims are in the announced order, every claim has one
      evaluation more than multilinears, and the last one is the equality indicator of the last coordinates of
      the two points; it returns the other evaluations, and does not panic. *)
  Theorem verify_outputs_spec s (claims : list (claim F)) eqc chal evals :
    (forall c, In c claims -> (cl_n c <= length chal)%nat) ->
    verify_outputs s claims eqc (chal, evals) <> Panic /\
    forall out, verify_outputs s claims eqc (chal, evals) = Ok out <->
      length eqc = length chal /\ length evals = length claims /\
      StronglySorted le (match s with AscendingVars => map cl_n claims | DescendingVars => rev (map cl_n claims) end) /\
      Forall (entry_ok chal eqc) (combine claims evals) /\ out = (chal, map (@removelast F) evals).
  Proof.
    intros HN. unfold verify_outputs.
    destruct (Nat.eqb_spec (length evals) (length claims)) as [LE|LE]; cbn [negb].
    2:{ split; [discriminate|]. intros out. split; [discriminate|]. intros [_ [A _]]. congruence. }
    destruct (Nat.eqb_spec (length eqc) (length chal)) as [LC|LC]; cbn [negb].
    2:{ split; [discriminate|]. intros out. split; [discriminate|]. intros [A _]. congruence. }
    set (l := match s with AscendingVars => combine claims evals | DescendingVars => rev (combine claims evals) end).
    assert (CL : map fst (combine claims evals) = claims) by (apply map_fst_combine; congruence).
    assert (CE : map snd (combine claims evals) = evals) by (apply map_snd_combine; congruence).
    assert (HL : forall ce, In ce l -> (cl_n (fst ce) <= length chal)%nat).
    { intros ce Hce. apply HN. rewrite <- CL. apply in_map. unfold l in Hce. destruct s; auto. now apply in_rev. }
    change (1, 0%nat) with (E chal eqc 0, 0%nat) || replace (1, 0%nat) with (E chal eqc 0, 0%nat).
    2:{ f_equal. unfold E, lastn. rewrite !Nat.sub_0_r, !skipn_all. reflexivity. }
    pose proof (loop_ok chal eqc LC l 0 (Nat.le_0_l _) HL) as H.
    assert (SO : StronglySorted le (0%nat :: map (fun ce => cl_n (fst ce)) l) <->
       StronglySorted le (match s with AscendingVars => map cl_n claims | DescendingVars => rev (map cl_n claims) end)).
    { assert (EQ : map (fun ce => cl_n (fst ce)) l = match s with AscendingVars => map cl_n claims | DescendingVars => rev (map cl_n claims) end).
      { assert (M : map (fun ce => cl_n (fst ce)) (combine claims evals) = map cl_n claims).
        { transitivity (map cl_n (map fst (combine claims evals))); [now rewrite map_map|now rewrite CL]. }
        unfold l. destruct s; [exact M|]. rewrite map_rev. now rewrite M. }
      rewrite EQ. split; [intros X; now inversion X|]. intros X. constructor; auto. apply Forall_forall. intros; lia. }
    assert (FO : Forall (entry_ok chal eqc) l <-> Forall (entry_ok chal eqc) (combine claims evals)).
    { unfold l. destruct s; [reflexivity|]. rewrite !Forall_forall. split; intros X x Hx; apply X; [now apply in_rev in Hx|]; now apply in_rev. }
    destruct (outputs_loop _ _ _ _) as [r| |]; rewrite ?SO, ?FO in H; cbn [rbind]; [|split; [discriminate|]; intros out; split; [discriminate|]; tauto|tauto].
    split; [discriminate|]. intros out. destruct H as [A [B ->]].
    assert (EV : match s with AscendingVars => map (fun ce => removelast (snd ce)) l | DescendingVars => rev (map (fun ce => removelast (snd ce)) l) end
                 = map (@removelast F) evals).
    { assert (M : map (fun ce => removelast (snd ce)) (combine claims evals) = map (@removelast F) evals).
      { transitivity (map (@removelast F) (map snd (combine claims evals))); [now rewrite map_map|now rewrite CE]. }
      unfold l. destruct s; [exact M|]. rewrite map_rev, rev_involutive. exact M. }
    rewrite EV. split; [intros X; injection X as <-; auto|]. intros [_ [_ [_ [_ ->]]]]. reflexivity.
  Qed.

  (* ---------------------------------------------------------------- *)
  Lemma firstn_last_app (q : list F) n : length q = S n -> q = firstn n q ++ [nth n q 0].
  Proof.
    revert q. induction n as [|n IH]; intros [|x q] H; try discriminate; [destruct q; [reflexivity|discriminate]|].
    cbn [firstn nth app]. f_equal. apply IH. now injection H.
  Qed.

  Lemma nth_error_last (q : list F) n : length q = S n -> nth_error q n = Some (nth n q 0).
  Proof. intros H. apply nth_error_nth'. lia. Qed.

  Lemma combine_app2 {A B} (a a' : list A) (b b' : list B) : length a = length b ->
    combine (a ++ a') (b ++ b') = combine a b ++ combine a' b'.
  Proof. revert b. induction a as [|x a IH]; intros [|y b] H; try discriminate; cbn; [reflexivity|]. f_equal. apply IH. now injection H. Qed.

  (** Multiplication by one more variable. *)
  Lemma extra_product_ok (c : comp F) : comp_ok c -> comp_ok (extra_product c).
  Proof.
    intros [H1 [H2 [H3 [H4 H5]]]]. unfold comp_ok. cbn [extra_product c_nv c_deg c_eval c_lead c_used].
    split; [|split; [|split; [|split]]].
    - intros q Hq. now rewrite (proj2 (Nat.eqb_neq _ _)).
    - intros q Hq. rewrite Hq, Nat.eqb_refl. cbn [negb]. destruct (H2 (firstn (c_nv c) q)) as [v E2]; [rewrite firstn_length; lia|].
      rewrite E2, (nth_error_last q (c_nv c)) by lia. cbn [of_opt rbind]. eauto.
    - intros a b La Lb. rewrite Nat.add_1_r in La, Lb.
      destruct (H3 (firstn (c_nv c) a) (firstn (c_nv c) b)) as [C [LC [EC LD]]]; [rewrite firstn_length; lia..|].
      set (a' := nth (c_nv c) a 0). set (b' := nth (c_nv c) b 0).
      (* (a' + t b') C(t) *)
      exists (padd (pscale a' C) (0 :: pscale b' C)).
      assert (LP : length (padd (pscale a' C) (0 :: pscale b' C)) = S (c_deg c + 1)).
      { rewrite padd_length. cbn [length]. unfold pscale. rewrite !map_length, LC. lia. }
      split; [exact LP|]. split.
      + intros t.
        assert (AL : aline a b t = aline (firstn (c_nv c) a) (firstn (c_nv c) b) t ++ [a' + t * b']).
        { rewrite (firstn_last_app a (c_nv c)) at 1 by auto. rewrite (firstn_last_app b (c_nv c)) at 1 by auto.
          unfold aline. rewrite combine_app2 by (rewrite !firstn_length; lia). rewrite map_app. reflexivity. }
        assert (LA : length (aline (firstn (c_nv c) a) (firstn (c_nv c) b) t) = c_nv c).
        { unfold aline. rewrite map_length, combine_length, !firstn_length. lia. }
        rewrite AL, app_length, LA, Nat.eqb_refl. cbn [negb length].
        rewrite firstn_app, LA, Nat.sub_diag, firstn_O, app_nil_r, firstn_all2 by lia.
        rewrite EC. cbn [rbind]. rewrite nth_error_app2 by lia. rewrite LA, Nat.sub_diag. cbn [nth_error of_opt rbind].
        f_equal. rewrite peval_padd, peval_cons, !peval_pscale. ring.
      + rewrite Lb. cbn [negb]. rewrite Nat.add_1_r, Nat.eqb_refl. cbn [negb]. rewrite LD. cbn [rbind].
        rewrite (nth_error_last b (c_nv c)) by auto. cbn [of_opt rbind]. f_equal.
        rewrite padd_nth, (Nat.add_1_r (c_deg c)). cbn [nth]. unfold pscale. rewrite (nth_overflow (map _ C)) by (rewrite map_length; lia).
        rewrite (nth_map_lt _ _ _ _ 0) by lia. fold b'. ring.
    - rewrite app_length, H4. cbn. lia.
    - intros q q' L L' A. rewrite L, L', Nat.eqb_refl. cbn [negb].
      rewrite Nat.add_1_r in L, L'.
      assert (AG : agree_on (c_used c) (firstn (c_nv c) q) (firstn (c_nv c) q')).
      { intros j Hj. assert (j < c_nv c)%nat by (destruct (le_lt_dec (c_nv c) j); auto; rewrite nth_overflow in Hj by lia; discriminate).
        rewrite !nth_firstn_lt by auto. apply A. rewrite app_nth1 by lia. auto. }
      destruct (H5 (firstn (c_nv c) q) (firstn (c_nv c) q')) as [X Y]; auto; try (rewrite firstn_length; lia).
      assert (Z : nth (c_nv c) q 0 = nth (c_nv c) q' 0).
      { apply A. rewrite app_nth2 by lia. rewrite H4, Nat.sub_diag. reflexivity. }
      rewrite (nth_error_last q (c_nv c)), (nth_error_last q' (c_nv c)) by auto. rewrite X, Y, Z. auto.
  Qed.

  (** the reduced claim and its multilinears: the equality indicator is the last one *)
  Definition reduced_claim (c : claim F) : claim F :=
    mkClaim (cl_n c) (cl_m c + 1) (map (fun cs => (extra_product (fst cs), snd cs)) (cl_sums c)).
  Definition reduced (r : list F) (i : inst F) : inst F :=
    (reduced_claim (fst i), snd i ++ [eqw (lastn (cl_n (fst i)) r)]).

  Theorem reduce_to_regular_spec (insts : list (inst F)) : Forall inst_ok insts ->
    reduce_to_regular (map fst insts) = Ok (map reduced_claim (map fst insts)).
  Proof.
    intros H. unfold reduce_to_regular. rewrite !map_map. apply collect_ok. intros i Hi.
    rewrite Forall_forall in H. destruct (H i Hi) as [_ HC]. unfold claim_new.
    assert (EX : existsb (fun cs => negb (c_nv (fst cs) =? cl_m (fst i) + 1)%nat)
                   (map (fun cs => (extra_product (fst cs), snd cs)) (cl_sums (fst i))) = false).
    { apply not_true_iff_false. intros X. apply existsb_exists in X as [x [Hx X]]. apply in_map_iff in Hx as [cs [<- Hcs]].
      cbn [fst extra_product c_nv] in X. destruct (HC cs Hcs) as [_ NV]. rewrite NV, Nat.eqb_refl in X. discriminate. }
    now rewrite EX.
  Qed.

  Theorem reduced_ok r i : inst_ok i -> inst_ok (reduced r i).
  Proof.
    intros [L HC]. split; cbn [reduced fst snd reduced_claim cl_m cl_sums].
    - rewrite app_length, L. reflexivity.
    - intros x Hx. apply in_map_iff in Hx as [cs [<- Hcs]]. destruct (HC cs Hcs) as [A B]. cbn [fst]. split.
      + now apply extra_product_ok.
      + cbn [extra_product c_nv]. lia.
  Qed.

  Lemma extra_value c (q : list F) x : comp_ok c -> length q = c_nv c -> val (c_eval (extra_product c) (q ++ [x])) = val (c_eval c q) * x.
  Proof.
    intros HC L. cbn [extra_product c_eval]. rewrite app_length, L, Nat.eqb_refl. cbn [negb].
    rewrite firstn_app, L, Nat.sub_diag, firstn_O, app_nil_r, firstn_all2 by lia.
    destruct HC as [_ [H2 _]]. destruct (H2 q L) as [v ->]. cbn [rbind]. rewrite nth_error_app2 by lia.
    rewrite L, Nat.sub_diag. reflexivity.
  Qed.

  (** The reduced claim is true exactly when the eq-ind claim is. *)
  Theorem reduced_true r i : inst_ok i -> (claim_true (reduced r i) <-> eq_claim_true r i).
  Proof.
    intros [L HC]. unfold claim_true, eq_claim_true. cbn [reduced fst snd reduced_claim cl_n cl_sums].
    assert (TS : forall cs, In cs (cl_sums (fst i)) ->
      true_sum (extra_product (fst cs)) (cl_n (fst i)) (snd i ++ [eqw (lastn (cl_n (fst i)) r)]) =
      sumn (2 ^ cl_n (fst i)) (fun x => val (c_eval (fst cs) (map (fun m => m x) (snd i))) * eqw (lastn (cl_n (fst i)) r) x)).
    { intros cs Hcs. destruct (HC cs Hcs) as [A B]. unfold true_sum. apply sumn_ext. intros x _. rewrite map_app. cbn [map].
      apply extra_value; auto. rewrite map_length. lia. }
    split; intros H cs Hcs.
    - rewrite <- TS by auto. apply (H (extra_product (fst cs), snd cs)). apply in_map_iff. eauto.
    - apply in_map_iff in Hcs as [x [<- Hx]]. cbn [fst snd]. rewrite TS by auto. now apply H.
  Qed.

  (** Accepted outputs with true evaluations come from sumcheck outputs with true evaluations. *)
  Lemma outputs_truthful s r (insts : list (inst F)) chal evals out :
    (forall i, In i insts -> (cl_n (fst i) <= length chal)%nat) ->
    verify_outputs s (map fst insts) r (chal, evals) = Ok out -> truthful_last insts out ->
    evals = map (fun i => mvals (reduced r i) (lastn (cl_n (fst i)) chal)) insts.
  Proof.
    intros HN H T. apply verify_outputs_spec in H.
    2:{ intros c Hc. apply in_map_iff in Hc as [i [<- Hi]]. auto. }
    destruct H as [_ [LE [_ [FA ->]]]]. unfold truthful_last in T. cbn [fst snd] in T. rewrite map_length in LE.
    clear HN. revert evals LE FA T. induction insts as [|i insts IH]; intros [|e evals] LE FA T; try discriminate; [reflexivity|].
    cbn [map combine] in *. inversion FA as [|? ? [A B] FA']; subst. cbn [fst snd] in A, B. injection T as T1 T2. f_equal.
    - unfold mvals, reduced in *. cbn [snd]. rewrite map_app. cbn [map]. rewrite <- T1, <- B.
      apply app_removelast_last. intros ->. cbn in A. lia.
    - apply IH; auto.
  Qed.

  Lemma truthful_outputs s r (insts : list (inst F)) chal : Forall inst_ok insts ->
    (forall i, In i insts -> (cl_n (fst i) <= length chal)%nat) -> length r = length chal ->
    StronglySorted le (match s with AscendingVars => map cl_n (map fst insts) | DescendingVars => rev (map cl_n (map fst insts)) end) ->
    verify_outputs s (map fst insts) r (chal, map (fun i => mvals (reduced r i) (lastn (cl_n (fst i)) chal)) insts) =
      Ok (chal, map (fun i => mvals i (lastn (cl_n (fst i)) chal)) insts).
  Proof.
    intros OK HN LR SO. apply verify_outputs_spec.
    { intros c Hc. apply in_map_iff in Hc as [i [<- Hi]]. auto. }
    split; auto. split; [now rewrite !map_length|]. split; auto. split.
    - apply Forall_forall. intros [c e] Hce.
      assert (exists i, In i insts /\ c = fst i /\ e = mvals (reduced r i) (lastn (cl_n (fst i)) chal)) as [i [Hi [-> ->]]].
      { clear - Hce. induction insts as [|i insts IH]; [destruct Hce|]. destruct Hce as [Hc|Hc].
        - injection Hc as <- <-. exists i. split; auto. now left.
        - destruct (IH Hc) as [j [A B]]. exists j. split; auto. now right. }
      rewrite Forall_forall in OK. destruct (OK i Hi) as [L _]. split; cbn [fst snd]; unfold mvals, reduced; cbn [snd].
      + rewrite map_length, app_length, L. reflexivity.
      + rewrite map_app. cbn [map]. now rewrite last_last.
    - f_equal. rewrite map_map. apply map_ext. intros i. unfold mvals, reduced. cbn [snd]. rewrite map_app. cbn [map].
      now rewrite removelast_last.
  Qed.

  (* ---------------------------------------------------------------- *)
  (** Results of a verifier *)
  Fixpoint returns {A} (Q : A -> Prop) (p : vproto F A) : Prop :=
    match p with
    | VRet (Ok a) => Q a
    | VRet _ => True
    | VRead n k => forall l, returns Q (k l)
    | VSample k => forall c, returns Q (k c)
    end.

  Lemma returns_bind {A B} (Q1 : A -> Prop) (Q : B -> Prop) p f : returns Q1 p -> (forall a, Q1 a -> returns Q (f a)) -> returns Q (vbind p f).
  Proof. intros H HF. induction p as [[a| |]|n k IH|k IH]; cbn [vbind returns] in *; auto. Qed.

  Lemma returns_true {A} (p : vproto F A) : returns (fun _ => True) p.
  Proof. induction p as [[a| |]|n k IH|k IH]; cbn [returns]; auto. Qed.

  Lemma returns_vrun {A} (Q : A -> Prop) p : returns Q p -> forall tape cs a t r, vrun p tape cs = Ok (a, t, r) -> Q a.
  Proof.
    induction p as [[a| |]|n k IH|k IH]; cbn [returns vrun rbind]; intros H tape cs b t r E; try discriminate.
    - now injection E as <- <- <-.
    - destruct (_ <? _)%nat; [discriminate|]. eapply IH; eauto.
    - destruct cs; [discriminate|]. eapply IH; eauto.
  Qed.

  Lemma sound_unassoc {A B C} (good : C -> Prop) e (p : vproto F A) (f : A -> vproto F B) (g : B -> vproto F C) :
    sound good e (vbind (vbind p f) g) -> sound good e (vbind p (fun a => vbind (f a) g)).
  Proof.
    revert e. induction p as [[a| |]|n k IH|k IH]; intros e; cbn [vbind]; auto.
    - intros H. inversion H; subst. constructor. intros l Hl. apply IH. auto.
    - intros H. inversion H; subst. apply (sound_sample F good d e0 b); auto.
  Qed.

  Lemma vrun_vbind {A B} (p : vproto F A) (f : A -> vproto F B) : forall tape cs,
    vrun (vbind p f) tape cs = (try r <- vrun p tape cs; vrun (f (fst (fst r))) (snd (fst r)) (snd r)).
  Proof.
    induction p as [[a| |]|n k IH|k IH]; intros tape cs; cbn [vbind vrun rbind fst snd]; auto.
    - destruct (_ <? _)%nat; [reflexivity|apply IH].
    - destruct cs; [reflexivity|apply IH].
  Qed.

  Lemma vrun_assoc {A B C} (p : vproto F A) (f : A -> vproto F B) (g : B -> vproto F C) tape cs :
    vrun (vbind p (fun a => vbind (f a) g)) tape cs = vrun (vbind (vbind p f) g) tape cs.
  Proof.
    rewrite !vrun_vbind. destruct (vrun p tape cs) as [[[a t] r]| |]; cbn [rbind fst snd]; auto. now rewrite vrun_vbind.
  Qed.

  Lemma run_rounds_returns n : forall (v : bverifier F) chal evals,
    returns (fun r => length (snd (fst r)) = (length chal + n)%nat) (run_rounds n v chal evals).
  Proof.
    induction n as [|n IH]; intros v chal evals; cbn [run_rounds].
    - cbn [returns fst snd]. lia.
    - eapply returns_bind; [apply returns_true|]. intros [v1 e1] _. eapply returns_bind; [apply returns_true|]. intros v2 _.
      cbn [vbind returns]. intros c. cbn [vbind]. destruct (finish_round v2 c) as [v3| |]; cbn [vbind returns]; auto.
      specialize (IH v3 (chal ++ [c]) e1). rewrite app_length in IH. cbn [length] in IH.
      replace (length chal + S n)%nat with (length chal + 1 + n)%nat by lia. exact IH.
  Qed.

  Lemma bv_run_returns (v : bverifier F) : returns (fun out => length (fst out) = total_rounds v) (bv_run v).
  Proof.
    unfold bv_run. eapply returns_bind; [apply run_rounds_returns|]. intros [[v1 chal] evals] H. cbn [fst snd length Nat.add] in H.
    eapply returns_bind; [apply returns_true|]. intros [v2 e2] _. destruct (bv_finish v2); cbn [vbind returns fst]; auto.
  Qed.

  Lemma bv_new_returns (insts : list (inst F)) :
    returns (fun out => length (fst out) = max_vars insts) (get v <- bv_new (map fst insts); bv_run v).
  Proof.
    eapply (returns_bind (fun v => total_rounds v = max_vars insts)).
    - unfold bv_new. eapply (returns_bind (fun cs => True)); [apply returns_true|]. intros coeffs _.
      destruct (new_prebatched _ _ _) as [v| |] eqn:EV; cbn [returns]; auto.
      destruct (new_prebatched_inv F _ _ _ _ EV) as [SA [LE ->]].
      unfold total_rounds. cbn [v_claims].
      assert (EC : map (fun x => fst (fst x)) (with_degrees (map fst insts) coeffs) = map fst insts).
      { apply with_degrees_claims. now rewrite map_length. }
      pose proof (total_rounds_last F (with_degrees (map fst insts) coeffs)) as TL. rewrite EC in TL.
      etransitivity; [exact TL|]. rewrite map_map. now apply asc_last.
    - intros v <-. apply bv_run_returns.
  Qed.

  Lemma lastn_rev n (r : list F) : (n <= length r)%nat -> lastn n (rev r) = rev (firstn n r).
  Proof. intros H. unfold lastn. rewrite rev_length, skipn_rev. replace (length r - (length r - n))%nat with n by lia. reflexivity. Qed.

  (** The claims that may be verified low to high have all the same number of variables. *)
  Definition order_ok (o : order) (insts : list (inst F)) (n : nat) : Prop :=
    match o with HighToLow => True | LowToHigh => forall i, In i insts -> cl_n (fst i) = n end.

  Lemma prefix_lastn o (insts : list (inst F)) i (chal : list F) n : length chal = n -> order_ok o insts n -> In i insts ->
    (cl_n (fst i) <= n)%nat ->
    prefix_point o (cl_n (fst i)) chal = lastn (cl_n (fst i)) (match o with HighToLow => rev chal | LowToHigh => chal end).
  Proof.
    intros L OO Hi LE. destruct o; cbn [order_ok prefix_point] in *.
    - rewrite (OO i Hi). unfold lastn. rewrite L, Nat.sub_diag. cbn [skipn]. rewrite <- L. apply firstn_all.
    - rewrite lastn_rev by lia. reflexivity.
  Qed.

  Lemma reduced_some_degree r (insts : list (inst F)) :
    (forall i, In i insts -> cl_sums (fst i) <> []) -> some_degree (map (reduced r) insts).
  Proof.
    intros H. unfold some_degree, max_vars. rewrite map_map. cbn [reduced fst reduced_claim cl_n].
    induction insts as [|i insts IH]; [left; reflexivity|]. cbn [map fold_right].
    destruct IH as [E|[j [Hj [E D]]]]; [intros; apply H; now right| |].
    - rewrite E. rewrite Nat.max_0_r. right. exists (reduced r i). split; [now left|]. split; [reflexivity|].
      specialize (H i (or_introl eq_refl)). unfold max_individual_degree. cbn [reduced fst reduced_claim cl_sums].
      destruct (cl_sums (fst i)) as [|cs l]; [contradiction|]. cbn [map fold_right fst extra_product c_deg]. lia.
    - destruct (Nat.le_ge_cases (cl_n (fst i)) (fold_right Nat.max 0 (map (fun i : inst F => cl_n (fst i)) insts))%nat) as [LE|GE].
      + rewrite Nat.max_r by exact LE. right. exists j. split; [now right|]. auto.
      + rewrite Nat.max_l by exact GE. right. exists (reduced r i). split; [now left|]. split; [reflexivity|].
        specialize (H i (or_introl eq_refl)). unfold max_individual_degree. cbn [reduced fst reduced_claim cl_sums].
        destruct (cl_sums (fst i)) as [|cs l]; [contradiction|]. cbn [map fold_right fst extra_product c_deg]. lia.
  Qed.

  Lemma verify_outputs_len s claims (r chal : list F) evals out : verify_outputs s claims r (chal, evals) = Ok out -> length chal = length r.
  Proof.
    unfold verify_outputs. destruct (_ =? _)%nat; cbn [negb]; [|discriminate].
    destruct (Nat.eqb_spec (length r) (length chal)); cbn [negb]; [auto|discriminate].
  Qed.

  (** Verification of eq-ind claims at least one of which is false: against any strategy of the prover, of the
      vectors of [k] challenges from a set [S], at most a fraction (number of composites + variables * (degree + 1)) / |S|
      make the verifier accept with evaluations that are the true ones. *)
  Lemma eqind_sound o s (insts : list (inst F)) r :
    Forall inst_ok insts -> (forall i, In i insts -> cl_sums (fst i) <> []) ->
    (forall i, In i insts -> (cl_n (fst i) <= length r)%nat) -> order_ok o insts (length r) ->
    (exists i, In i insts /\ ~ eq_claim_true r i) ->
    sound (fun out => ~ truthful_last insts out)
      (n_composites insts + max_vars insts * max_degree (map (reduced r) insts)) (eqind_verify o s (map fst insts) r).
  Proof.
    intros OKS NE LE OO [i [Hi BAD]]. unfold eqind_verify. rewrite reduce_to_regular_spec by auto.
    change (vbind (VRet (Ok ?x)) ?f) with (f x). cbv beta.
    replace (map reduced_claim (map fst insts)) with (map fst (map (reduced r) insts)) by (rewrite !map_map; reflexivity).
    assert (S1 : sound (fun out => ~ truthful_front o (map (reduced r) insts) out)
              (n_composites insts + max_vars insts * max_degree (map (reduced r) insts))
              (get v <- bv_new (map fst (map (reduced r) insts)); bv_run v)).
    { replace (n_composites insts) with (n_composites (map (reduced r) insts)).
      2:{ unfold n_composites. rewrite map_map. f_equal. apply map_ext. intros j. cbn [reduced fst reduced_claim cl_sums]. apply map_length. }
      replace (max_vars insts) with (max_vars (map (reduced r) insts)) by (unfold max_vars; rewrite map_map; reflexivity).
      apply front_loaded_sound.
      - apply Forall_forall. intros x Hx. apply in_map_iff in Hx as [j [<- Hj]]. apply reduced_ok. rewrite Forall_forall in OKS. auto.
      - now apply reduced_some_degree.
      - exists (reduced r i). split; [now apply in_map|]. rewrite reduced_true; auto. rewrite Forall_forall in OKS. auto. }
    pose proof (sound_bind F _ (fun out => ~ truthful_last insts out) _ 0 _
      (fun out => VRet (verify_outputs s (map fst insts) r (match o with HighToLow => (rev (fst out), snd out) | LowToHigh => out end))) S1) as H.
    rewrite Nat.add_0_r in H. apply sound_unassoc. apply H. clear H S1. intros [chal evals] NT.
    destruct (verify_outputs _ _ _ _) as [out| |] eqn:EV; [|constructor..]. constructor. intros T. apply NT.
    set (chal' := match o with HighToLow => rev chal | LowToHigh => chal end).
    replace (match o with LowToHigh => (chal, evals) | HighToLow => (rev (fst (chal, evals)), snd (chal, evals)) end)
      with (chal', evals) in EV by (unfold chal'; destruct o; reflexivity).
    pose proof (verify_outputs_len _ _ _ _ _ _ EV) as LC.
    apply outputs_truthful in EV; [|intros; rewrite LC; auto|exact T].
    unfold truthful_front. cbn [fst snd]. rewrite EV, map_map. apply map_ext_in. intros j Hj. f_equal. symmetry.
    apply (prefix_lastn o insts j chal (length r)); auto. rewrite <- LC. unfold chal'. destruct o; now rewrite ?rev_length.
  Qed.

  Theorem eqind_soundness o s (insts : list (inst F)) r :
    Forall inst_ok insts -> (forall i, In i insts -> cl_sums (fst i) <> []) ->
    (forall i, In i insts -> (cl_n (fst i) <= length r)%nat) -> order_ok o insts (length r) ->
    (exists i, In i insts /\ ~ eq_claim_true r i) ->
    forall (strategy : list F -> nat -> list F) (S : list F) (k : nat) (L : list (list F)),
      NoDup S -> NoDup L ->
      (forall cs, In cs L -> length cs = k /\ incl cs S /\
         exists out, vplay (eqind_verify o s (map fst insts) r) strategy [] 0 cs = Ok out /\ truthful_last insts out) ->
      (length L * length S <= (n_composites insts + max_vars insts * (1 + max_degree insts)) * length S ^ k)%nat.
  Proof.
    intros OKS NE LE OO BAD. apply of_sound. eapply sound_mono; [now apply eqind_sound| |intros; auto].
    apply Nat.add_le_mono_l, Nat.mul_le_mono_l. unfold max_degree. rewrite map_map.
    clear. induction insts as [|i insts IH]; cbn [map fold_right]; [lia|].
    assert ((max_individual_degree (fst (reduced r i)) <= 1 + max_individual_degree (fst i))%nat).
    { unfold max_individual_degree. cbn [reduced fst reduced_claim cl_sums]. rewrite map_map. cbn [fst extra_product c_deg].
      induction (cl_sums (fst i)) as [|cs l IHl]; cbn [map fold_right]; lia. }
    lia.
  Qed.

  (** True eq-ind claims are accepted, whatever the challenges, from provers of the reduced claims. *)
  Theorem eqind_complete {St} (ops : prover_ops F St) o s (insts : list (inst F)) (provers : list St) r :
    Forall inst_ok insts -> (forall i, In i insts -> cl_sums (fst i) <> []) ->
    length r = max_vars insts -> order_ok o insts (length r) ->
    StronglySorted le (map (fun i : inst F => cl_n (fst i)) insts) ->
    StronglySorted le (match s with AscendingVars => map cl_n (map fst insts) | DescendingVars => rev (map cl_n (map fst insts)) end) ->
    Forall (eq_claim_true r) insts ->
    Forall2 (fun i s => serves ops o i (cl_n (fst i)) [] s) (map (reduced r) insts) provers ->
    let prover := put b <- bp_new ops provers; bp_run ops b in
    (forall ch : nat -> F, exists n out tape, prun prover (map ch (seq 0 n)) = Ok (out, tape, [])) /\
    (forall cs out tape rest, prun prover cs = Ok (out, tape, rest) ->
       forall extra, exists out', vrun (eqind_verify o s (map fst insts) r) (tape ++ extra) cs = Ok (out', extra, rest) /\
         fst out' = (match o with HighToLow => rev (fst out) | LowToHigh => fst out end) /\ truthful_last insts out').
  Proof.
    intros OKS NE LR OO SA SS TR SV prover.
    assert (OKR : Forall inst_ok (map (reduced r) insts)).
    { apply Forall_forall. intros x Hx. apply in_map_iff in Hx as [j [<- Hj]]. apply reduced_ok. rewrite Forall_forall in OKS. auto. }
    assert (TRR : Forall claim_true (map (reduced r) insts)).
    { apply Forall_forall. intros x Hx. apply in_map_iff in Hx as [j [<- Hj]]. rewrite Forall_forall in OKS, TR. apply reduced_true; auto. }
    assert (SAR : StronglySorted le (map (fun i : inst F => cl_n (fst i)) (map (reduced r) insts))) by (rewrite map_map; exact SA).
    destruct (front_loaded_complete F ops o (map (reduced r) insts) provers OKR (reduced_some_degree r insts NE) TRR SAR SV) as [A B].
    split; [exact A|]. intros cs out tape rest E extra. destruct (B cs out tape rest E extra) as [V T].
    assert (LC : length (fst out) = max_vars insts).
    { pose proof (returns_vrun _ _ (bv_new_returns (map (reduced r) insts)) _ _ _ _ _ V) as H. rewrite H. unfold max_vars. now rewrite map_map. }
    assert (LE : forall i, In i insts -> (cl_n (fst i) <= length r)%nat).
    { intros i Hi. rewrite LR. unfold max_vars. clear -Hi. induction insts as [|j l IH]; [destruct Hi|]. cbn [map fold_right].
      destruct Hi as [->|Hi]; [lia|]. specialize (IH Hi). lia. }
    set (chal' := match o with HighToLow => rev (fst out) | LowToHigh => fst out end).
    assert (LC' : length chal' = length r) by (rewrite LR, <- LC; unfold chal'; destruct o; now rewrite ?rev_length).
    exists (chal', map (fun i => mvals i (lastn (cl_n (fst i)) chal')) insts). split; [|split; [reflexivity|reflexivity]].
    unfold eqind_verify. rewrite reduce_to_regular_spec by auto. change (vbind (VRet (Ok ?x)) ?f) with (f x). cbv beta.
    replace (map reduced_claim (map fst insts)) with (map fst (map (reduced r) insts)) by (rewrite !map_map; reflexivity).
    rewrite (vrun_assoc (bv_new (map fst (map (reduced r) insts))) (fun v => bv_run v)).
    rewrite (vrun_vbind (get v <- bv_new (map fst (map (reduced r) insts)); bv_run v)), V. cbn [rbind vrun fst snd].
    replace (match o with LowToHigh => out | HighToLow => (rev (fst out), snd out) end) with
      (chal', map (fun i => mvals (reduced r i) (lastn (cl_n (fst i)) chal')) insts).
    - rewrite truthful_outputs; auto. intros. rewrite LC'. auto.
    - destruct out as [chal evals]. unfold truthful_front in T. cbn [fst snd] in *. rewrite T, map_map.
      assert (EQ : map (fun i => mvals (reduced r i) (lastn (cl_n (fst i)) chal')) insts =
                   map (fun i => mvals (reduced r i) (prefix_point o (cl_n (fst (reduced r i))) chal)) insts).
      { apply map_ext_in. intros j Hj. f_equal. symmetry. apply (prefix_lastn o insts j chal (length r)); auto. congruence. }
      rewrite EQ. unfold chal'. destruct o; reflexivity.
  Qed.
End Props.
Arguments returns {_ _} _ _.
Arguments order_ok {_} _ _ _.
Arguments reduced_claim {_} _.
Arguments reduced {_} _ _.
Arguments entry_ok {_} _ _ _.

(* ------------------------------------------------------------------ *)
(** The composition X * Y on two multilinears of two variables, at the point (6, 11). *)
Definition eq_ex (sum : X16) : inst X16 :=
  (mkClaim 2 2 [(product2 X16, sum)], [fun x => nth x (els [3; 7; 2; 9]%N) f0; fun x => nth x (els [1; 5; 8; 8]%N) f0]).
Definition eq_ex_point : list X16 := els [6; 11]%N.

Lemma eq_ex_ok sum : inst_ok (eq_ex sum).
Proof. split; [reflexivity|]. intros cs [<-|[]]. split; [apply product2_ok|reflexivity]. Qed.

(** a true claim, an accepted transcript, and the evaluations it ends in *)
Example eqind_complete_ex :
  eq_claim_true eq_ex_point (eq_ex (el 7%N)) /\ order_ok HighToLow [eq_ex (el 7%N)] 2 /\
  exists out, vrun (eqind_verify HighToLow AscendingVars [fst (eq_ex (el 7%N))] eq_ex_point)
                (els [4; 7; 10; 15; 10; 5; 10; 1; 7]%N) (els [2; 7; 13]%N) = Ok (out, [], []) /\
    truthful_last [eq_ex (el 7%N)] out /\ map bits (fst out) = [13; 7]%N /\ map (map bits) (snd out) = [[10; 1]]%N.
Proof.
  split; [|split; [exact I|]].
  - intros cs [<-|[]]. vm_compute. reflexivity.
  - eexists. split; [vm_compute; reflexivity|]. split; [vm_compute; reflexivity|]. split; vm_compute; reflexivity.
Qed.

(** the same claim with another sum is false; a wrong last evaluation is rejected *)
Example eqind_soundness_ex :
  Forall inst_ok [eq_ex (el 8%N)] /\ ~ eq_claim_true eq_ex_point (eq_ex (el 8%N)) /\
  n_composites [eq_ex (el 8%N)] = 1 /\ max_vars [eq_ex (el 8%N)] = 2 /\ max_degree [eq_ex (el 8%N)] = 2 /\
  verify_outputs AscendingVars [fst (eq_ex (el 7%N))] eq_ex_point (els [13; 7]%N, [els [10; 1; 6]%N]) = Err.
Proof.
  split; [constructor; [apply eq_ex_ok|constructor]|]. split.
  - intros H. specialize (H _ (or_introl eq_refl)). apply (f_equal bits) in H. vm_compute in H. discriminate H.
  - repeat split; vm_compute; reflexivity.
Qed.

(** Claims with different numbers of variables, verified in descending order. *)
Example verify_outputs_ex :
  let c := fun n => mkClaim n 0 ([] : list (comp X16 * X16)) in
  let e := fun n => [mle (eqw (lastn n (els [6; 11]%N))) (lastn n (els [13; 7]%N))] in
  (exists out, verify_outputs DescendingVars [c 2; c 1; c 0] (els [6; 11]%N) (els [13; 7]%N, [e 2; e 1; e 0]) = Ok out) /\
  verify_outputs AscendingVars [c 2; c 1; c 0] (els [6; 11]%N) (els [13; 7]%N, [e 2; e 1; e 0]) = Err.
Proof. split; [eexists; vm_compute; reflexivity|vm_compute; reflexivity]. Qed.
