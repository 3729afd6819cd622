(** Lockstep analysis of the batch provers and verifiers. *)
Require Import Coq.setoid_ring.Ring Coq.Arith.Arith Coq.Lists.List Coq.Bool.Bool Coq.Sorting.Sorted Lia.
From Verif Require Import Base.Fld Base.Lists Base.Sums Base.Poly Math.MleModel Math.MleSpec Math.UnivariateModel
  Math.UnivariateProps Protocol.Proto Protocol.Soundness Protocol.Complete Sumcheck.SumcheckModel Sumcheck.SumcheckSpec
  Sumcheck.SumcheckProofs Sumcheck.SumcheckSound Sumcheck.BatchProverModel Sumcheck.BatchProverSpec.
Import ListNotations.

Section Proofs.
  Variable F : field.
  Local Open Scope fld_scope.
  Add Ring Fring : (f_ring F).

  (* ---------------------------------------------------------------- *)
  (** Round coefficients. *)
  Lemma zip_add_length (l r : list F) : length (zip_add l r) = length l.
  Proof. revert r. induction l as [|a l IH]; intros [|b r]; cbn [zip_add length]; auto. Qed.

  Lemma zip_add_peval (l r : list F) x : (length r <= length l)%nat -> peval (zip_add l r) x = peval l x + peval r x.
  Proof.
    revert r. induction l as [|a l IH]; intros [|b r] H; cbn [zip_add].
    - rewrite peval_nil. ring.
    - cbn in H. lia.
    - rewrite peval_nil. ring.
    - rewrite !peval_cons, IH by (cbn in H; lia). ring.
  Qed.

  Lemma peval_repeat0 n x : peval (repeat (0 : F) n) x = 0.
  Proof. apply peval_zero. apply Forall_forall. intros y Hy. now apply repeat_spec in Hy. Qed.

  Lemma rc_add_length (l r : list F) : length (rc_add l r) = Nat.max (length l) (length r).
  Proof.
    unfold rc_add. rewrite zip_add_length. destruct (Nat.ltb_spec (length l) (length r)); [|lia].
    rewrite app_length, repeat_length. lia.
  Qed.

  Lemma rc_add_peval (l r : list F) x : peval (rc_add l r) x = peval l x + peval r x.
  Proof.
    unfold rc_add. destruct (Nat.ltb_spec (length l) (length r)).
    - rewrite zip_add_peval by (rewrite app_length, repeat_length; lia). rewrite peval_app, peval_repeat0. ring.
    - now apply zip_add_peval.
  Qed.

  Lemma rc_mul_length (l : list F) k : length (rc_mul l k) = length l.
  Proof. apply map_length. Qed.

  Lemma rc_mul_peval (l : list F) k x : peval (rc_mul l k) x = k * peval l x.
  Proof. induction l as [|a l IH]; cbn [rc_mul map]; [rewrite peval_nil; ring|]. rewrite !peval_cons. fold (rc_mul l k). rewrite IH. ring. Qed.

  Lemma removelast_length {A} (l : list A) : length (removelast l) = (length l - 1)%nat.
  Proof.
    destruct l as [|x l _] using rev_ind; [reflexivity|]. rewrite removelast_last, app_length. cbn. lia.
  Qed.

  Lemma recover_truncate (c : list F) : (2 <= length c)%nat -> recover (rc_truncate c) (peval c 0 + peval c 1) = c.
  Proof.
    intros H. destruct c as [|z c _] using rev_ind; [cbn in H; lia|]. unfold rc_truncate. rewrite removelast_last.
    rewrite app_length in H. cbn in H. unfold recover. rewrite fold_left_fsum. do 2 f_equal.
    rewrite peval_at_0, peval_at_1. destruct c as [|a c]; [cbn in H; lia|]. cbn [app fsum]. rewrite fsum_app. cbn [fsum]. ring.
  Qed.

  (** The same recovery for every sum the verifier may hold. *)
  Lemma interpolate_truncate (c : list F) s x : (2 <= length c)%nat -> s = peval c 0 + peval c 1 ->
    interpolate_round_proof (rc_truncate c) s x = peval c x.
  Proof.
    intros H ->. unfold interpolate_round_proof. rewrite recover_truncate by exact H. apply evaluate_univariate_correct.
  Qed.

  (* ---------------------------------------------------------------- *)
  Section Drivers.
    Variable St : Type.
    Variable ops : prover_ops F St.
    Variable o : order.

    (** an active prover: instance, coefficient, challenges it has seen *)
    Record act : Type := mkAct { a_i : inst F; a_c : F; a_p : list F }.

    Definition maxdeg (l : list act) : nat := fold_right Nat.max 0%nat (map (fun t => max_individual_degree (fst (a_i t))) l).

    (** Executing and folding all active provers. *)
    Lemma exec_all_ok (k : act -> nat) : forall l sl acc,
      Forall2 (fun t sa => snd sa = a_c t /\ serves ops o (a_i t) (S (k t)) (a_p t) (fst sa)) l sl ->
      exists c sl', exec_all ops sl acc = Ok (c, sl') /\
        length c = Nat.max (length acc) (match l with [] => 0%nat | _ => S (maxdeg l) end) /\
        (forall x, peval c x = peval acc x + fsum (map (fun t => TV o (a_i t) (a_c t) (a_p t ++ [x]) (k t)) l)) /\
        forall x, exists sl'', fold_all ops sl' x = Ok sl'' /\
          Forall2 (fun t sa => snd sa = a_c t /\ serves ops o (a_i t) (k t) (a_p t ++ [x]) (fst sa)) l sl''.
    Proof.
      intros l. induction l as [|t l IH]; intros sl acc H2.
      - inversion H2; subst. exists acc, []. cbn [exec_all length map fsum]. repeat split.
        + lia.
        + intros x. ring.
        + intros x. exists []. split; [reflexivity|constructor].
      - inversion H2 as [|t' sa l' sl' [HC HS] HR]; subst. destruct sa as [s a]. cbn [fst snd] in HC, HS. subst a.
        cbn [serves] in HS. destruct HS as [_ [_ HS]]. destruct (HS (a_c t)) as [c [s' [E [LC [PC FC]]]]].
        destruct (IH sl' (rc_add acc (rc_mul c (a_c t)))) as [c2 [sl2 [E2 [L2 [P2 F2]]]]]; [exact HR|].
        exists c2, ((s', a_c t) :: sl2). cbn [exec_all]. rewrite E. cbn [rbind]. rewrite E2. cbn [rbind]. repeat split.
        + rewrite L2, rc_add_length, rc_mul_length, LC. unfold maxdeg. cbn [map fold_right]. destruct l; [cbn; lia|]. fold (maxdeg (a :: l)). lia.
        + intros x. rewrite P2, rc_add_peval, rc_mul_peval, PC. cbn [map fsum]. rewrite TV_round. ring.
        + intros x. destruct (FC x) as [s'' [EF SF]]. destruct (F2 x) as [sl'' [EF2 SF2]].
          exists ((s'', a_c t) :: sl''). cbn [fold_all]. rewrite EF. cbn [rbind]. rewrite EF2. cbn [rbind]. split; [reflexivity|].
          constructor; auto.
    Qed.

    Lemma psamples_agree {A B} (Q : A -> B -> Prop) n : forall (kp : list F -> pproto F A) (kv : list F -> vproto F B),
      (forall cs, length cs = n -> agree Q [] (kp cs) (kv cs)) ->
      agree Q [] (pbind (psamples n) kp) (vbind (vsamples n) kv).
    Proof.
      induction n as [|n IH]; intros kp kv H; cbn [psamples vsamples pbind vbind]; [now apply H|].
      apply agree_sample. intros c. apply agree_assoc_p, agree_assoc_v. apply IH. intros cs HL. cbn [pbind vbind].
      apply H. cbn. lia.
    Qed.

    Lemma send_read_evals {A B} (Q : A -> B -> Prop) (claims : list (claim F)) : forall evals (p : pproto F A) (k : list (list F) -> vproto F B),
      Forall2 (fun e c => length e = cl_m c) evals claims -> agree Q [] p (k evals) ->
      agree Q [] (send_evals evals p) (vbind (read_evals claims) k).
    Proof.
      induction claims as [|c claims IH]; intros evals p k H2 HA.
      - inversion H2; subst. exact HA.
      - inversion H2 as [|e c' es cs HL HR]; subst. cbn [send_evals read_evals vbind]. rewrite <- HL. apply agree_msg.
        apply agree_assoc_v. apply IH; [exact HR|]. exact HA.
    Qed.

    Section Batch.
    Variable insts : list (inst F).

    Definition TL (n : nat) (l : list act) : F := fsum (map (fun t => TV o (a_i t) (a_c t) (a_p t) n) l).

    Record LInv (n : nat) (l : list act) (sl : list (St * F)) (pend : list (inst F)) (spend : list St) (st : bstate F) : Prop :=
      { li_insts : map a_i l ++ pend = insts;
        li_serves : Forall2 (fun t sa => snd sa = a_c t /\ serves ops o (a_i t) n (a_p t) (fst sa)) l sl;
        li_pserves : Forall2 (fun i s => serves ops o i (cl_n (fst i)) [] s) pend spend;
        li_pend : b_pending st = map fst pend;
        li_coeffs : b_coeffs st = map a_c l;
        li_sum : b_sum st = TL n l;
        li_deg : b_deg st = maxdeg l;
        li_p : forall t, In t l -> a_p t = own F n (a_i t) (b_chal st);
        li_len : (length (b_chal st) + n = max_vars insts)%nat;
        li_pend_n : forall i, In i pend -> (cl_n (fst i) <= n)%nat;
        li_acts_n : forall t, In t l -> (n <= cl_n (fst (a_i t)))%nat }.

    Lemma maxdeg_snoc l t : maxdeg (l ++ [t]) = Nat.max (maxdeg l) (max_individual_degree (fst (a_i t))).
    Proof. unfold maxdeg. induction l as [|u l IH]; cbn [app map fold_right]; [lia|]. rewrite IH. lia. Qed.

    (** One activation, whatever the coefficient. *)
    Lemma activate_lock_one n l sl i pend s spend st a : LInv n l sl (i :: pend) (s :: spend) st -> cl_n (fst i) = n ->
      claim_true i ->
      LInv n (l ++ [mkAct i a []]) (sl ++ [(s, a)]) pend spend
        (mkB (map fst pend) (b_coeffs st ++ [a]) (b_chal st) (b_sum st + claim_sum a (fst i))
             (Nat.max (b_deg st) (max_individual_degree (fst i)))).
    Proof.
      intros [I1 I2 I3 I4 I5 I6 I7 I8 I9 I10 I11] HN TR. inversion I3 as [|? ? ? ? S1 S2]; subst.
      constructor; cbn [b_pending b_coeffs b_chal b_sum b_deg]; auto.
      - now rewrite map_app, <- app_assoc.
      - apply Forall2_app; auto.
      - now rewrite I5, map_app.
      - rewrite I6. unfold TL. rewrite map_app, fsum_app. cbn [map fsum a_i a_c a_p].
        rewrite (claim_true_sum F o i a TR). ring.
      - now rewrite I7, maxdeg_snoc.
      - intros t Ht. apply in_app_iff in Ht as [Ht|[<-|[]]]; auto. cbn [a_p a_i]. now rewrite own_new.
      - intros j Hj. apply I10. now right.
      - intros t Ht. apply in_app_iff in Ht as [Ht|[<-|[]]]; auto.
    Qed.

    Hypothesis SD : StronglySorted ge (map (fun i : inst F => cl_n (fst i)) insts).
    Hypothesis TRUE : Forall claim_true insts.

    Lemma pend_sorted' (l : list act) (pend : list (inst F)) i : map a_i l ++ i :: pend = insts ->
      forall j, In j pend -> (cl_n (fst j) <= cl_n (fst i))%nat.
    Proof.
      intros E j Hj. rewrite <- E, map_app in SD. apply strongly_sorted_app in SD as [_ [S2 _]].
      cbn [map] in S2. inversion S2 as [|? ? _ H]; subst. rewrite Forall_forall in H.
      specialize (H (cl_n (fst j))). apply H. now apply (in_map (fun i => cl_n (fst i))).
    Qed.

    Lemma serves_n i k p s : serves ops o i k p s -> p_n ops s = cl_n (fst i).
    Proof. destruct k; intros [H _]; exact H. Qed.

    Lemma activate_lock {A B} (Q : A -> B -> Prop) n chal kp kv :
      (forall l sl pend spend st, LInv n l sl pend spend st -> b_chal st = chal -> (forall i, In i pend -> cl_n (fst i) < n)%nat ->
         agree Q [] (kp (sl, spend)) (kv st)) ->
      forall pend l sl spend st, LInv n l sl pend spend st -> b_chal st = chal ->
        agree Q [] (pbind (p_activate ops n spend sl) kp)
                   (vbind (activate n (b_pending st) (b_coeffs st) (b_chal st) (b_sum st) (b_deg st)) kv).
    Proof.
      intros HK pend. induction pend as [|i pend IH]; intros l sl spend st I HC.
      - pose proof (li_pserves _ _ _ _ _ _ I) as H3. inversion H3; subst. rewrite (li_pend _ _ _ _ _ _ I).
        cbn [map activate p_activate pbind vbind]. apply (HK l sl [] []); [|reflexivity|intros i []].
        destruct st; destruct I; cbn in *; subst; now constructor.
      - pose proof (li_pserves _ _ _ _ _ _ I) as H3. inversion H3 as [|? s ? spend' S1 S2]; subst.
        rewrite (li_pend _ _ _ _ _ _ I). cbn [map activate p_activate].
        rewrite (serves_n _ _ _ _ S1).
        destruct (Nat.eqb_spec (cl_n (fst i)) n) as [E|NE]; cbn [negb].
        + cbn [pbind vbind]. apply agree_sample. intros a.
          assert (TR : claim_true i).
          { rewrite Forall_forall in TRUE. apply TRUE. rewrite <- (li_insts _ _ _ _ _ _ I). apply in_app_iff. right. now left. }
          apply (IH _ _ _ _ (activate_lock_one n l sl i pend s spend' st a I E TR)). reflexivity.
        + cbn [pbind vbind]. apply (HK l sl (i :: pend) (s :: spend')).
          * destruct st; destruct I; cbn in *; subst; now constructor.
          * reflexivity.
          * assert (L : (cl_n (fst i) < n)%nat) by (pose proof (li_pend_n _ _ _ _ _ _ I i (or_introl eq_refl)); lia).
            intros j [<-|Hj]; auto.
            pose proof (pend_sorted' l pend i (li_insts _ _ _ _ _ _ I) j Hj). lia.
    Qed.

    Hypothesis DEG : max_vars insts = 0%nat \/
      exists i, In i insts /\ cl_n (fst i) = max_vars insts /\ (1 <= max_individual_degree (fst i))%nat.

    Lemma maxdeg_ge l t : In t l -> (max_individual_degree (fst (a_i t)) <= maxdeg l)%nat.
    Proof. intros H. unfold maxdeg. apply max_list_ge. now apply (in_map (fun t => max_individual_degree (fst (a_i t)))). Qed.

    Definition step_act (x : F) (t : act) : act := mkAct (a_i t) (a_c t) (a_p t ++ [x]).

    Lemma rounds_lock {A B} (Q : A -> B -> Prop) kp kv :
      (forall l sl pend spend st, LInv 0 l sl pend spend st ->
         agree Q [] (kp (sl, spend, b_chal st)) (kv st)) ->
      forall n l sl pend spend st, LInv n l sl pend spend st ->
        agree Q [] (pbind (p_rounds ops n sl spend (b_chal st)) kp) (vbind (rounds n st) kv).
    Proof.
      intros HK n. induction n as [|n IH]; intros l sl pend spend st I; cbn [rounds p_rounds].
      - cbn [pbind vbind]. now apply (HK l sl pend spend st).
      - apply agree_assoc_p, agree_assoc_v.
        apply (activate_lock Q (S n) (b_chal st)) with (pend := pend) (l := l); auto.
        assert (G : forall st0 : bstate F, b_chal st = b_chal st0 -> forall l sl pend spend,
          LInv (S n) l sl pend spend st0 -> (forall i, In i pend -> cl_n (fst i) < S n)%nat ->
          agree Q [] (put x <- (let '(acts, pend) := (sl, spend) in
              put r <- PRet (exec_all ops acts []); let '(coeffs, acts) := r in
              PSend (rc_truncate coeffs) (PSample (fun x => put acts <- PRet (fold_all ops acts x); p_rounds ops n acts pend (b_chal st ++ [x])))); kp x)
            (get a <- (get coeffs <- vread (b_deg st0); get challenge <- vsample;
               rounds n (mkB (b_pending st0) (b_coeffs st0) (b_chal st0 ++ [challenge])
                     (interpolate_round_proof coeffs (b_sum st0) challenge) (b_deg st0))); kv a)).
        2:{ intros; now apply (G st0 (eq_sym H0) l0 sl0 pend0 spend0). }
        clear I l sl pend spend. intros st0 HC l sl pend spend I LT. rewrite HC. clear st HC. rename st0 into st.
        pose proof I as [I1 I2 I3 I4 I5 I6 I7 I8 I9 I10 I11].
        destruct DEG as [Z|[i [INI [EN DI]]]]; [lia|].
        assert (IL : exists t, In t l /\ a_i t = i).
        { rewrite <- I1 in INI. apply in_app_iff in INI as [INI|INI].
          - apply in_map_iff in INI as [t [E Ht]]. now exists t.
          - specialize (LT i INI). lia. }
        destruct IL as [t0 [Ht0 Et0]].
        assert (MD : (1 <= maxdeg l)%nat) by (pose proof (maxdeg_ge l t0 Ht0) as M; rewrite Et0 in M; lia).
        destruct (exec_all_ok (fun _ => n) l sl [] I2) as [c [sl' [E [LC [PC FC]]]]].
        assert (LC' : length c = S (maxdeg l)) by (rewrite LC; destruct l; [destruct Ht0|]; cbn [length]; lia).
        rewrite E. cbn [pbind vbind]. rewrite I7.
        replace (maxdeg l) with (length (rc_truncate c)) at 1 by (unfold rc_truncate; rewrite removelast_length; lia).
        apply agree_msg. apply agree_sample. intros x.
        destruct (FC x) as [sl'' [EF SF]]. rewrite EF. cbn [pbind].
        apply (IH (map (step_act x) l) sl'' pend spend (mkB _ _ _ _ _)).
        assert (PX : forall x, peval c x = TL n (map (step_act x) l)).
        { intros y. rewrite PC, peval_nil. unfold TL. rewrite map_map. cbn [step_act a_i a_c a_p]. ring. }
        constructor; cbn [b_pending b_coeffs b_chal b_sum b_deg]; auto.
        + rewrite map_map. exact I1.
        + clear -SF. induction SF; cbn [map]; constructor; auto.
        + rewrite map_map. exact I5.
        + rewrite <- PX. apply interpolate_truncate; [lia|]. rewrite I6, !PX. unfold TL. rewrite !map_map, <- fsum_map_add.
          f_equal. apply map_ext. intros t. cbn [step_act a_i a_c a_p]. apply TV_step.
        + unfold maxdeg. now rewrite map_map.
        + intros t Ht. apply in_map_iff in Ht as [u [<- Hu]]. cbn [step_act a_i a_p]. rewrite (I8 u Hu).
          rewrite own_snoc; [reflexivity|now apply I11|]. rewrite I9. unfold max_vars. apply max_list_ge.
          apply (in_map (fun i => cl_n (fst i))). rewrite <- I1. apply in_app_iff. left. now apply in_map.
        + rewrite app_length. cbn [length]. lia.
        + intros j Hj. specialize (LT j Hj). lia.
        + intros t Ht. apply in_map_iff in Ht as [u [<- Hu]]. cbn [step_act a_i]. specialize (I11 u Hu). lia.
    Qed.

    Hypothesis OKS : Forall inst_ok insts.

    Lemma activate_rest_lock {A B} (Q : A -> B -> Prop) chal kp kv :
      (forall l sl st, LInv 0 l sl [] [] st -> b_chal st = chal -> agree Q [] (kp (map fst sl)) (kv (b_coeffs st, b_sum st))) ->
      forall pend l sl spend st, LInv 0 l sl pend spend st -> b_chal st = chal ->
        agree Q [] (pbind (psamples (length spend)) (fun _ => kp (map fst sl ++ spend)))
                   (vbind (activate_rest (b_pending st) (b_coeffs st) (b_sum st)) kv).
    Proof.
      intros HK pend. induction pend as [|i pend IH]; intros l sl spend st I HC;
        pose proof (li_pserves _ _ _ _ _ _ I) as H3; inversion H3 as [|? s ? spend' S1 S2]; subst;
        rewrite (li_pend _ _ _ _ _ _ I); cbn [map activate_rest length psamples pbind vbind].
      - rewrite app_nil_r. now apply (HK l sl st).
      - apply agree_sample. intros a. apply agree_assoc_p.
        assert (E : cl_n (fst i) = 0%nat) by (pose proof (li_pend_n _ _ _ _ _ _ I i (or_introl eq_refl)); lia).
        assert (TR : claim_true i).
        { rewrite Forall_forall in TRUE. apply TRUE. rewrite <- (li_insts _ _ _ _ _ _ I). apply in_app_iff. right. now left. }
        pose proof (IH _ _ _ _ (activate_lock_one 0 l sl i pend s spend' st a I E TR) eq_refl) as X.
        cbn [b_pending b_coeffs b_sum] in X. rewrite map_app, <- app_assoc in X. exact X.
    Qed.

    Lemma expected_multi_acts l : (forall t, In t l -> inst_ok (a_i t)) ->
      expected_multi (map a_c l) (map fst (map a_i l)) (map (fun t => mvals (a_i t) (pt o (a_p t))) l) = Ok (TL 0 l).
    Proof.
      induction l as [|t l IH]; intros H; [reflexivity|]. cbn [map expected_multi].
      rewrite expected_single_ok by (apply H; now left). cbn [rbind]. rewrite IH by (intros; apply H; now right).
      cbn [rbind]. unfold TL. cbn [map fsum]. now rewrite TV_0.
    Qed.

    Lemma finish_acts l sl : Forall2 (fun t sa => snd sa = a_c t /\ serves ops o (a_i t) 0 (a_p t) (fst sa)) l sl ->
      collect_res (map (p_finish ops) (map fst sl)) = Ok (map (fun t => mvals (a_i t) (pt o (a_p t))) l).
    Proof.
      induction 1 as [|t sa l sl [_ H] _ IH]; [reflexivity|]. cbn [map collect_res]. destruct H as [_ [_ ->]]. cbn [rbind].
      rewrite IH. reflexivity.
    Qed.

    Lemma own_suffix i chal : pt o (own F 0 i chal) = suffix_point o (cl_n (fst i)) (pt o chal).
    Proof.
      unfold own. rewrite Nat.sub_0_r. destruct o; cbn [pt suffix_point]; [reflexivity|]. now rewrite firstn_rev.
    Qed.

    Lemma batch_lock provers :
      Forall2 (fun i s => serves ops o i (cl_n (fst i)) [] s) insts provers ->
      agree (fun a b => a = b /\ truthful o insts b) [] (batch_prove ops provers) (batch_verify o (map fst insts)).
    Proof.
      intros SV.
      assert (NS : map (p_n ops) provers = map cl_n (map fst insts)).
      { clear -SV. induction SV as [|i s il sl H _ IH]; [reflexivity|]. cbn [map]. now rewrite (serves_n _ _ _ _ H), IH. }
      assert (ORD : forall s, In s provers -> p_order ops s = o).
      { clear -SV. induction SV as [|i s il sl H _ IH]; [intros ? []|]. intros u [<-|Hu]; auto. destruct (cl_n (fst i)); apply H. }
      destruct provers as [|first rest] eqn:EP.
      { inversion SV; subst. cbn [batch_prove map batch_verify rev is_sorted_ascending negb fold_right rounds vbind activate_rest
          read_evals expected_multi b_pending b_coeffs b_sum b_chal]. rewrite feqb_refl. cbn [negb]. 
        destruct o; cbn [rev]; apply agree_ret; split; reflexivity. }
      rewrite <- EP in *. unfold batch_prove. rewrite EP at 1. rewrite (ORD first) by (rewrite EP; now left).
      replace (existsb _ provers) with false.
      2:{ symmetry. apply not_true_is_false. intros H. apply existsb_exists in H as [s [Hs HH]]. rewrite (ORD s Hs) in HH. now destruct o. }
      rewrite NS. unfold batch_verify.
      destruct (is_sorted_ascending (rev (map cl_n (map fst insts)))) eqn:SO; cbn [negb].
      2:{ exfalso. assert (X : is_sorted_ascending (rev (map cl_n (map fst insts))) = true)
            by (rewrite map_map; exact (desc_sorted _ SD)). congruence. }
      rewrite (map_map fst cl_n).
      change (fold_right Nat.max 0%nat (map (fun x : inst F => cl_n (fst x)) insts)) with (max_vars insts).
      apply (rounds_lock _ (fun r => let '(acts, pend, chal) := r in
         put _ <- psamples (length pend);
         put evals <- PRet (collect_res (map (p_finish ops) (map fst acts ++ pend)));
         send_evals evals (PRet (Ok (match o with HighToLow => rev chal | LowToHigh => chal end, evals)))))
        with (l := []) (pend := insts) (st := mkB (map fst insts) [] [] 0 0).
      2:{ constructor; cbn [b_pending b_coeffs b_chal b_sum b_deg map app length]; auto; try (intros ? []).
          intros i Hi. unfold max_vars. apply max_list_ge. now apply (in_map (fun i => cl_n (fst i))). }
      intros l sl pend spend st I.
      apply (activate_rest_lock _ (b_chal st) (fun provers => put evals <- PRet (collect_res (map (p_finish ops) provers));
         send_evals evals (PRet (Ok (match o with HighToLow => rev (b_chal st) | LowToHigh => b_chal st end, evals)))))
        with (pend := pend) (l := l); auto.
      clear I l sl pend spend. intros l sl st' I HC. pose proof I as [I1 I2 I3 I4 I5 I6 I7 I8 I9 I10 I11].
      rewrite (finish_acts l sl I2). cbn [pbind]. rewrite app_nil_r in I1.
      assert (EV : map (fun t => mvals (a_i t) (pt o (a_p t))) l =
                   map (fun i => mvals i (suffix_point o (cl_n (fst i)) (pt o (b_chal st)))) insts).
      { rewrite <- I1, map_map. apply map_ext_in. intros t Ht. rewrite (I8 t Ht), own_suffix. now rewrite HC. }
      apply send_read_evals.
      - rewrite EV. rewrite Forall_forall in OKS. clear -OKS. induction insts as [|i il IH]; cbn [map]; constructor.
        + unfold mvals. rewrite map_length. apply (OKS i). now left.
        + apply IH. intros j Hj. apply OKS. now right.
      - rewrite I5, <- I1. rewrite expected_multi_acts.
        2:{ intros t Ht. rewrite Forall_forall in OKS. apply OKS. rewrite <- I1. now apply in_map. }
        cbn [vbind]. rewrite I6, feqb_refl. cbn [negb]. apply agree_ret.
        split; [reflexivity|]. unfold truthful. cbn [fst snd]. rewrite I1, EV. apply map_ext. intros i. now destruct o.
    Qed.
    End Batch.

    Section FrontLoaded.
    Variable insts : list (inst F).
    Hypothesis OKS : Forall inst_ok insts.
    Hypothesis SA : StronglySorted le (map (fun i : inst F => cl_n (fst i)) insts).
    Hypothesis DEG : max_vars insts = 0%nat \/
      exists i, In i insts /\ cl_n (fst i) = max_vars insts /\ (1 <= max_individual_degree (fst i))%nat.

    Record GInv (done : list (inst F)) (rem : list (inst F * F)) (v : bverifier F) (b : bprover F St) (chal : list F) : Prop :=
      { gi_insts : done ++ map fst rem = insts;
        gi_claims : v_claims v = with_degrees (map (fun ia : inst F * F => fst (fst ia)) rem) (map snd rem);
        gi_round : v_round v = length chal;
        gi_last : v_last v = SumV (TF F o rem chal);
        gi_done : forall i, In i done -> (cl_n (fst i) <= length chal)%nat;
        gi_rem : forall ia, In ia rem -> (length chal <= cl_n (fst (fst ia)))%nat;
        gi_evals : bp_evals b = fvals F o done chal;
        gi_bround : bp_round b = length chal;
        gi_serves : Forall2 (fun ia sa => snd sa = snd ia /\
                       serves ops o (fst ia) (cl_n (fst (fst ia)) - length chal) chal (fst sa)) rem (bp_provers b) }.

    Lemma finish_lock {A B} (Q : A -> B -> Prop) chal kp kv :
      (forall done rem v b, GInv done rem v b chal -> (forall ia, In ia rem -> (length chal < cl_n (fst (fst ia)))%nat) ->
         agree Q [] (kp b) (kv (v, bp_evals b))) ->
      forall rem fuel done v b, GInv done rem v b chal -> (length rem < fuel)%nat ->
        agree Q [] (pbind (finish_provers ops (bp_provers b) (bp_evals b) (bp_round b)) kp)
                   (vbind (finish_claims fuel v (bp_evals b)) kv).
    Proof.
      intros HK rem. induction rem as [|[i a] rem IH]; intros fuel done v b I HF;
        (destruct fuel as [|fuel]; [cbn in HF; lia|]); cbn [finish_claims]; apply agree_assoc_v; unfold try_finish_claim;
        pose proof I as [I1 I2 I3 I4 I5 I6 I7 I8 I9]; rewrite I2.
      - inversion I9 as [E|]; subst. cbn [map with_degrees vbind finish_provers pbind].
        apply (HK done [] v (mkP [] (bp_evals b) (bp_round b))); [|intros ia []].
        constructor; cbn [bp_provers bp_evals bp_round]; auto.
      - inversion I9 as [|? [s a'] ? sl [S0 S1] S2]; subst. cbn [fst snd] in S0, S1. subst a'. cbn [map fst snd].
        destruct (with_degrees_cons F (fst i) (map (fun ia : inst F * F => fst (fst ia)) rem) a (map snd rem)) as [d [-> _]].
        rewrite I3. cbn [finish_provers]. rewrite (serves_n _ _ _ _ S1), I8.
        assert (OI : inst_ok i).
        { rewrite Forall_forall in OKS. apply OKS. rewrite <- I1. apply in_app_iff. right. now left. }
        destruct (Nat.compare_spec (cl_n (fst i)) (length chal)) as [E|L|G].
        + rewrite E, Nat.eqb_refl. cbn [negb]. rewrite E, Nat.sub_diag in S1. destruct S1 as [_ [_ ->]]. cbn [pbind].
          apply agree_assoc_v. 
          replace (cl_m (fst i)) with (length (mvals i (pt o chal))) by (unfold mvals; rewrite map_length; apply OI).
          apply agree_msg. rewrite I4. rewrite expected_single_ok by exact OI. cbn [vbind].
          apply (IH fuel (done ++ [i]) _ (mkP sl (bp_evals b ++ [mvals i (pt o chal)]) (length chal))); [|cbn in HF; lia].
          constructor; cbn [v_claims v_round v_last bp_provers bp_evals bp_round]; auto.
          * rewrite <- app_assoc. exact I1.
          * unfold TF. cbn [map fst snd fsum]. rewrite E, Nat.sub_diag, TV_0. f_equal. fold (TF F o rem chal). ring.
          * intros j Hj. apply in_app_iff in Hj as [Hj|[<-|[]]]; auto. lia.
          * intros ia Hia. apply I6. now right.
          * rewrite I7. unfold fvals. rewrite map_app. cbn [map]. rewrite E, firstn_all. reflexivity.
        + specialize (I6 (i, a) (or_introl eq_refl)). cbn [fst] in I6. lia.
        + destruct (Nat.eqb_spec (cl_n (fst i)) (length chal)); [lia|]. cbn [negb pbind vbind].
          apply (HK done ((i, a) :: rem) v (mkP ((s, a) :: sl) (bp_evals b) (length chal))).
          * constructor; cbn [bp_provers bp_evals bp_round]; auto.
          * intros ia [<-|Hia]; [exact G|].
            assert (L : (cl_n (fst i) <= cl_n (fst (fst ia)))%nat).
            { rewrite <- I1 in SA. rewrite map_app in SA. apply strongly_sorted_app in SA as [_ [X2 _]]. cbn [map fst] in X2.
              inversion X2 as [|? ? _ HH]; subst. rewrite Forall_forall in HH. apply (HH (cl_n (fst (fst ia)))).
              rewrite map_map. now apply (in_map (fun ia : inst F * F => cl_n (fst (fst ia)))). }
            lia.
    Qed.

    Definition to_act (chal : list F) (ia : inst F * F) : act := mkAct (fst ia) (snd ia) chal.

    Lemma with_degrees_max (rem : list (inst F * F)) c a d rest chal :
      with_degrees (map (fun ia : inst F * F => fst (fst ia)) rem) (map snd rem) = (c, a, d) :: rest ->
      d = maxdeg (map (to_act chal) rem).
    Proof.
      intros E. destruct (with_degrees_bound F rem c a d rest E) as [H1 H2]. apply Nat.le_antisymm.
      - apply H2. intros ia Hia. apply (maxdeg_ge (map (to_act chal) rem) (to_act chal ia)). now apply in_map.
      - unfold maxdeg. rewrite map_map. cbn [to_act a_i]. clear -H1. induction rem as [|ia rem IH]; cbn [map fold_right]; [lia|].
        pose proof (H1 ia (or_introl eq_refl)). assert (fold_right Nat.max 0 (map (fun x : inst F * F => max_individual_degree (fst (fst x))) rem) <= d)%nat
          by (apply IH; intros; apply H1; now right). lia.
    Qed.

    Lemma front_rounds_lock {A B} (Q : A -> B -> Prop) kp kv :
      (forall done rem v b chal, GInv done rem v b chal -> length chal = max_vars insts ->
         agree Q [] (kp (b, chal)) (kv (v, chal, bp_evals b))) ->
      forall n done rem v b chal, GInv done rem v b chal -> (n + length chal = max_vars insts)%nat ->
        agree Q [] (pbind (bp_rounds ops n b chal) kp) (vbind (run_rounds n v chal (bp_evals b)) kv).
    Proof.
      intros HK n. induction n as [|n IH]; intros done rem v b chal I LN; cbn [run_rounds bp_rounds].
      - cbn [pbind vbind]. now apply (HK done rem).
      - apply agree_assoc_p, agree_assoc_v. unfold send_round_proof. apply agree_assoc_p.
        apply (finish_lock Q chal) with (done := done) (rem := rem); auto.
        2:{ pose proof (gi_claims _ _ _ _ _ I) as E. rewrite E.
            clear -F. assert (G : length rem = length (with_degrees (map (fun ia : inst F * F => fst (fst ia)) rem) (map snd rem))).
            { rewrite <- (map_length (fun x => fst (fst x)) (with_degrees _ _)), with_degrees_claims; rewrite !map_length; reflexivity. }
            lia. }
        clear I done rem v b. intros done rem v b I LT.
        pose proof I as [I1 I2 I3 I4 I5 I6 I7 I8 I9].
        destruct DEG as [Z|[i [INI [EN DI]]]]; [lia|].
        assert (IR : exists ia, In ia rem /\ fst ia = i).
        { rewrite <- I1 in INI. apply in_app_iff in INI as [INI|INI].
          - specialize (I5 i INI). lia.
          - apply in_map_iff in INI as [ia [E Hia]]. now exists ia. }
        destruct IR as [ia0 [IA0 IA1]].
        pose (k := fun t : act => (cl_n (fst (a_i t)) - S (length chal))%nat).
        assert (SV : Forall2 (fun t sa => snd sa = a_c t /\ serves ops o (a_i t) (S (k t)) (a_p t) (fst sa)) (map (to_act chal) rem) (bp_provers b)).
        { clear -I9 LT. induction I9 as [|ia sa rem sl [H1 H2] _ IH]; cbn [map]; constructor.
          - split; [exact H1|]. unfold k; cbn [to_act a_i a_p].
            specialize (LT ia (or_introl eq_refl)).
            replace (S (cl_n (fst (fst ia)) - S (length chal))) with (cl_n (fst (fst ia)) - length chal)%nat by lia. exact H2.
          - apply IH. intros; apply LT; now right. }
        destruct (exec_all_ok k (map (to_act chal) rem) (bp_provers b) [] SV) as [c [sl' [E [LC [PC FC]]]]].
        rewrite E. cbn [pbind].
        unfold receive_round_proof. rewrite I4.
        destruct (v_claims v) as [|[[cc a] d] rest] eqn:EV.
        { exfalso. destruct rem as [|[j y] rem]; [destruct IA0|]. cbn [map fst snd] in I2.
          destruct (with_degrees_cons F (fst j) (map (fun ia : inst F * F => fst (fst ia)) rem) y (map snd rem)) as [d [EE _]].
          congruence. }
        rewrite (with_degrees_max rem cc a d rest chal (eq_sym I2)).
        assert (MD : (1 <= maxdeg (map (to_act chal) rem))%nat).
        { pose proof (maxdeg_ge (map (to_act chal) rem) (to_act chal ia0) (in_map _ _ _ IA0)) as M. cbn [to_act a_i] in M. rewrite IA1 in M. lia. }
        assert (LC' : length c = S (maxdeg (map (to_act chal) rem))).
        { rewrite LC. destruct rem; [destruct IA0|]. cbn [map length]. lia. }
        destruct (Nat.eqb_spec (cl_n cc) (v_round v)) as [EQ|_].
        { exfalso. destruct rem as [|[j y] rem]; [destruct IA0|]. cbn [map fst snd] in I2.
          destruct (with_degrees_cons F (fst j) (map (fun ia : inst F * F => fst (fst ia)) rem) y (map snd rem)) as [d' [EE _]].
          rewrite EE in I2. injection I2 as E1 _ _ _. subst cc. specialize (LT (j, y) (or_introl eq_refl)). cbn [fst] in LT. lia. }
        cbn [vbind].
        replace (maxdeg (map (to_act chal) rem)) with (length (rc_truncate c)) at 1 by (unfold rc_truncate; rewrite removelast_length; lia).
        apply agree_msg. apply agree_sample. intros x.
        destruct (FC x) as [sl'' [EF SF]]. unfold receive_challenge. cbn [bp_provers bp_evals bp_round]. rewrite EF. cbn [rbind pbind].
        cbn [finish_round v_last v_claims v_round vbind].
        apply (IH done rem (mkV _ _ _) (mkP sl'' (bp_evals b) (S (bp_round b)))); [|rewrite app_length; cbn [length]; lia].
        assert (PX : forall x, peval c x = TF F o rem (chal ++ [x])).
        { intros y. rewrite PC, peval_nil. unfold TF. rewrite map_map. unfold k. cbn [to_act a_i a_c a_p].
          transitivity (fsum (map (fun ia : inst F * F => TV o (fst ia) (snd ia) (chal ++ [y]) (cl_n (fst (fst ia)) - length (chal ++ [y]))) rem)); [|reflexivity].
          replace (length (chal ++ [y])) with (S (length chal)) by (rewrite app_length; cbn [length]; lia). ring. }
        constructor; cbn [v_claims v_round v_last bp_provers bp_evals bp_round]; auto.
        + rewrite <- (with_degrees_max rem cc a d rest chal (eq_sym I2)). exact I2.
        + rewrite app_length. cbn [length]. lia.
        + f_equal. rewrite <- PX. fold (interpolate_round_proof (rc_truncate c) (TF F o rem chal) x).
          apply interpolate_truncate; [lia|]. rewrite !PX. unfold TF. rewrite <- fsum_map_add. f_equal. apply map_ext_in.
          intros ia Hia. rewrite !app_length. cbn [length]. rewrite Nat.add_1_r, <- TV_step. specialize (LT ia Hia). f_equal. lia.
        + intros j Hj. rewrite app_length. specialize (I5 j Hj). lia.
        + intros ia Hia. rewrite app_length. cbn [length]. specialize (LT ia Hia). lia.
        + rewrite (fvals_snoc F o insts) by auto. exact I7.
        + rewrite app_length. cbn [length]. lia.
        + clear -SF. revert SF. generalize sl'' as sl. induction rem as [|ia rem IHr]; intros sl SF; inversion SF as [|? ? ? ? [H1 H2] H3]; subst; constructor.
          * split; [exact H1|]. unfold k in H2. cbn [to_act a_i a_p] in H2.
            rewrite app_length. cbn [length]. rewrite Nat.add_1_r. exact H2.
          * now apply IHr.
    Qed.

    Lemma front_lock rem v b : GInv [] rem v b [] ->
      agree (fun a c => a = c /\ truthful_front o insts c) [] (bp_run ops b) (bv_run v).
    Proof.
      intros I. unfold bv_run, bp_run.
      pose proof (gi_insts _ _ _ _ _ I) as E1. cbn [app] in E1.
      assert (TR : total_rounds v = max_vars insts).
      { unfold total_rounds. rewrite (gi_claims _ _ _ _ _ I).
        assert (EC : map (fun x => fst (fst x)) (with_degrees (map (fun ia : inst F * F => fst (fst ia)) rem) (map snd rem))
                     = map fst insts).
        { rewrite with_degrees_claims by now rewrite !map_length. now rewrite <- E1, map_map. }
        change (max_vars insts) with (fold_right Nat.max 0%nat (map (fun i : inst F => cl_n (fst i)) insts)).
        rewrite <- (asc_last (map (fun i : inst F => cl_n (fst i)) insts)) by exact SA.
        transitivity (last (map cl_n (map fst insts)) 0%nat); [rewrite <- EC; apply total_rounds_last|now rewrite map_map]. }
      assert (TB : bp_total_rounds ops b = max_vars insts).
      { unfold bp_total_rounds.
        change (max_vars insts) with (fold_right Nat.max 0%nat (map (fun i : inst F => cl_n (fst i)) insts)).
        rewrite <- (asc_last (map (fun i : inst F => cl_n (fst i)) insts)) by exact SA.
        rewrite <- E1. pose proof (gi_serves _ _ _ _ _ I) as S. clear -S.
        assert (EN : map (fun sa => p_n ops (fst sa)) (bp_provers b) = map (fun i : inst F => cl_n (fst i)) (map fst rem)).
        { induction S as [|ia sa rem sl [_ H] _ IH]; [reflexivity|]. cbn [map]. now rewrite (serves_n _ _ _ _ H), IH. }
        rewrite <- EN. destruct (bp_provers b) as [|sa l _] using rev_ind; [reflexivity|].
        rewrite rev_app_distr, map_app. cbn [rev app map]. rewrite last_last. now destruct sa. }
      rewrite TR, TB.
      replace (@nil (list F)) with (bp_evals b) by (rewrite (gi_evals _ _ _ _ _ I); reflexivity).
      apply front_rounds_lock with (done := []) (rem := rem); auto.
      clear I rem v b E1 TR TB. intros done rem v b chal I LN. unfold bp_finish. apply agree_assoc_p.
      apply (finish_lock _ chal) with (done := done) (rem := rem); auto.
      2:{ pose proof (gi_claims _ _ _ _ _ I) as E. rewrite E.
          clear -F. assert (G : length rem = length (with_degrees (map (fun ia : inst F * F => fst (fst ia)) rem) (map snd rem))).
          { rewrite <- (map_length (fun x => fst (fst x)) (with_degrees _ _)), with_degrees_claims; rewrite !map_length; reflexivity. }
          lia. }
      clear I done rem v b. intros done rem v b I LT. pose proof I as [I1 I2 I3 I4 I5 I6 I7 I8 I9].
      destruct rem as [|[i a] rem].
      2:{ specialize (LT (i, a) (or_introl eq_refl)). cbn [fst] in LT.
          assert (cl_n (fst i) <= max_vars insts)%nat; [|lia]. unfold max_vars. apply max_list_ge.
          apply (in_map (fun i => cl_n (fst i))). rewrite <- I1. apply in_app_iff. right. now left. }
      cbn [map] in I1. rewrite app_nil_r in I1. subst done. inversion I9 as [E|]. cbn [pbind].
      unfold bv_finish. rewrite I2, I4. cbn [map with_degrees]. unfold TF. cbn [map fsum]. rewrite feqb_refl. cbn [negb vbind].
      apply agree_ret. split; [reflexivity|]. unfold truthful_front. cbn [fst snd]. rewrite I7. apply map_ext.
      intros i. now destruct o.
    Qed.
    End FrontLoaded.
  End Drivers.
End Proofs.

Arguments mkAct {_} _ _ _.
Arguments a_i {_} _.
Arguments a_c {_} _.
Arguments a_p {_} _.
Arguments maxdeg {_} _.
