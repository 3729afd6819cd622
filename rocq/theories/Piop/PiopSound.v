(** Analysis of the interleaved sumcheck of the polynomial IOP verifier. *)
Require Import Coq.setoid_ring.Ring Coq.Arith.Arith Coq.Lists.List Coq.Bool.Bool Coq.Sorting.Sorted Lia.
From Verif Require Import Base.Fld Base.Lists Base.Sums Base.Poly Math.MleSpec Math.UnivariateModel Math.UnivariateProps
  Math.PiecewiseModel Math.PiecewiseProps Protocol.Proto Protocol.Soundness Sumcheck.SumcheckModel Sumcheck.SumcheckSpec
  Sumcheck.SumcheckProofs Sumcheck.SumcheckSound Sumcheck.SumcheckProps Piop.MetaModel Piop.MetaProps Piop.PiopModel Piop.PiopLayout.
Import ListNotations.
Local Open Scope nat_scope.

Section General.
  Variable F : field.

  Lemma at_most_or d1 d2 (b1 b2 : F -> bool) : at_most d1 b1 -> at_most d2 b2 -> at_most (d1 + d2) (fun x => b1 x || b2 x).
  Proof.
    intros H1 H2 l ND HL.
    assert (E : length l = length (filter b1 l) + length (filter (fun x => negb (b1 x)) l)).
    { clear. induction l as [|a l IH]; cbn [filter]; [reflexivity|]. destruct (b1 a); cbn [negb length]; lia. }
    rewrite E. apply Nat.add_le_mono.
    - apply H1; [now apply NoDup_filter|]. intros x Hx. now apply filter_In in Hx.
    - apply H2; [now apply NoDup_filter|]. intros x Hx. apply filter_In in Hx as [Hx N]. specialize (HL x Hx). destruct (b1 x); [discriminate|exact HL].
  Qed.

  (** Two guarantees together: the errors add up. *)
  Lemma sound_and {A} (P Q : A -> Prop) e1 (p : vproto F A) : sound P e1 p -> forall e2, sound Q e2 p -> sound (fun a => P a /\ Q a) (e1 + e2) p.
  Proof.
    induction 1 as [e|e|e a H|e n k H IH|d e b k HB H IH]; intros e2 H2.
    - constructor.
    - constructor.
    - constructor. split; auto. now inversion H2.
    - constructor. intros l Hl. apply IH; auto. inversion H2; subst. auto.
    - inversion H2 as [| | | |d' e' b' k' HB' HK' EE EK]; subst.
      replace (d + e + (d' + e')) with ((d + d') + (e + e')) by lia.
      apply (sound_sample F _ _ _ (fun x => b x || b' x)); [now apply at_most_or|].
      intros c Hc. apply orb_false_iff in Hc as [C1 C2]. apply IH; auto.
  Qed.

  Lemma vsamples_len n : sound (fun l => length l = n) 0 (vsamples (F := F) n).
  Proof.
    induction n as [|n IH]; cbn [vsamples]; [constructor; reflexivity|].
    apply (sound_sample F _ 0 0 (fun _ => false)); [apply at_most_none|]. intros c _.
    apply (sound_bind F _ _ 0 0 _ _ IH). intros l Hl. constructor. cbn. lia.
  Qed.
End General.

Section Interleaved.
  Variable F : field.
  Local Open Scope fld_scope.
  Add Ring Fring : (f_ring F).
  Variables (arities : list nat) (dl : nat) (fri : list (list F) -> list F -> vproto F F).

  (* ---------------------------------------------------------------- *)
  (** * The claims *)
  Section Sums.
    Variables (o : order) (insts : list (inst F)).
    Hypothesis OKS : Forall inst_ok insts.
    Hypothesis SA : StronglySorted le (map (fun i : inst F => cl_n (fst i)) insts).
    Hypothesis DEGS : Forall (fun i : inst F => cl_sums (fst i) = [] \/ (1 <= max_individual_degree (fst i))%nat) insts.

    Lemma TV_none (i : inst F) a p k : cl_sums (fst i) = [] -> TV o i a p k = 0.
    Proof.
      intros E. revert p. induction k as [|k IH]; intros p.
      - rewrite TV_0. unfold SumcheckProofs.W. rewrite E. cbn. unfold batch_weighted_value. cbn. ring.
      - rewrite TV_step, !IH. ring.
    Qed.

    Lemma TF_round done rem v sum chal evals : FInv F o insts done rem v sum chal evals ->
      (forall ia, In ia rem -> (length chal < cl_n (fst (fst ia)))%nat) ->
      forall d, (forall ia, In ia rem -> (max_individual_degree (fst (fst ia)) <= d)%nat) ->
      is_poly (S d) (fun x => TF F o rem (chal ++ [x])) /\
      TF F o rem (chal ++ [0]) + TF F o rem (chal ++ [1]) = TF F o rem chal.
    Proof.
      intros [I1 I2 I3 I4 I5 I6 I7] LT d HD.
      assert (E : forall x, TF F o rem (chal ++ [x]) =
        fsum (map (fun ia => TV o (fst ia) (snd ia) (chal ++ [x]) (cl_n (fst (fst ia)) - S (length chal))) rem)).
      { intros x. unfold TF. rewrite app_length. cbn [length]. now rewrite Nat.add_1_r. }
      split.
      - eapply is_poly_ext; [exact E|].
        apply (is_poly_fsum F _ (fun ia x => TV o (fst ia) (snd ia) (chal ++ [x]) (cl_n (fst (fst ia)) - S (length chal)))).
        intros ia Hia. apply is_poly_le with (n := S (max_individual_degree (fst (fst ia)))); [apply le_n_S; now apply HD|].
        apply TV_poly. rewrite Forall_forall in OKS. apply OKS. rewrite <- I1. apply in_app_iff. right. now apply in_map.
      - rewrite !E, <- fsum_map_add. unfold TF. f_equal. apply map_ext_in. intros ia Hia. rewrite <- TV_step.
        specialize (LT ia Hia). f_equal. lia.
    Qed.

    Lemma evaluate_recover_nil (s x : F) : evaluate_univariate (recover [] s) x = s.
    Proof. unfold recover, evaluate_univariate. cbn. ring. Qed.

    Lemma interleaved_sums {B} (good : B -> Prop) e N k :
      (forall done rem v sum chal evals comms, FInv F o insts done rem v sum chal evals -> length chal = N ->
         sound good e (k (v, chal, evals, comms))) ->
      forall n round next ars comms done rem v sum chal evals, FInv F o insts done rem v sum chal evals -> (n + length chal = N)%nat ->
        sound good ((max_vars insts - length chal) * max_degree insts + e) (vbind (interleaved dl n round next ars v chal evals comms) k).
    Proof.
      intros HK n. induction n as [|n IH]; intros round next ars comms done rem v sum chal evals I LN; cbn [interleaved].
      - cbn [vbind]. eapply sound_mono; [apply (HK done rem v sum); auto|apply Nat.le_add_l|auto].
      - apply sound_assoc. apply (finish_claims_sound F o insts OKS good _ chal) with (done := done) (rem := rem) (sum := sum); auto.
        clear I done rem v sum evals. intros done rem v sum evals I LT. pose proof I as [I1 I2 I3 I4 I5 I6 I7].
        (* whatever follows, the invariant is enough *)
        assert (NEXT : forall x v' sum', FInv F o insts done rem v' sum' (chal ++ [x]) evals ->
          sound good ((max_vars insts - S (length chal)) * max_degree insts + e)
            (vbind (if match next with Some r => (r =? round + 1)%nat | None => false end then
                get comm <- vread dl;
                interleaved dl n (S round) (match ars with [] => None | a :: _ => Some (round + 1 + a)%nat end) (tl ars) v' (chal ++ [x]) evals (comms ++ [comm])
              else interleaved dl n (S round) next ars v' (chal ++ [x]) evals comms) k)).
        { intros x v' sum' I'. replace (S (length chal)) with (length (chal ++ [x])) by (rewrite app_length; cbn; lia).
          destruct (match next with Some r => _ | None => false end).
          - apply sound_assoc. apply sound_bind_read. intros comm _. apply (IH _ _ _ _ done rem v' sum'); auto. rewrite app_length. cbn. lia.
          - apply (IH _ _ _ _ done rem v' sum'); auto. rewrite app_length. cbn. lia. }
        assert (STEP : forall x s', (evals = fvals F o done chal -> s' <> TF F o rem (chal ++ [x])) ->
          FInv F o insts done rem (mkV (v_claims v) (S (v_round v)) (SumV s')) s' (chal ++ [x]) evals).
        { intros x s' HS. constructor; cbn [v_claims v_round v_last]; auto.
          - rewrite app_length. cbn [length]. lia.
          - intros j Hj. rewrite app_length. specialize (I5 j Hj). lia.
          - intros ia Hia. rewrite app_length. cbn [length]. specialize (LT ia Hia). lia.
          - rewrite (fvals_snoc F o [] (or_introl eq_refl)) by auto. exact HS. }
        assert (SAME : (forall ia, In ia rem -> cl_sums (fst (fst ia)) = []) -> forall x, evals = fvals F o done chal -> sum <> TF F o rem (chal ++ [x])).
        { intros HZ x EV. specialize (I7 EV). intros ES. apply I7. rewrite ES. unfold TF. f_equal. apply map_ext_in. intros ia Hia.
          rewrite !TV_none by auto. reflexivity. }
        apply sound_assoc. unfold receive_round_proof. rewrite I4.
        destruct (v_claims v) as [|[[c a] d] rest] eqn:EV.
        + apply sound_assoc. apply sound_bind_read. intros coeffs HL. destruct coeffs; [|discriminate]. cbn [vbind].
          assert (RE : rem = []).
          { destruct rem as [|[j y] rem]; auto. exfalso. cbn [map fst snd] in I2.
            destruct (with_degrees_cons F (fst j) (map (fun ia : inst F * F => fst (fst ia)) rem) y (map snd rem)) as [d [E _]]. congruence. }
          eapply sound_mono; [apply (sound_sample F good 0 ((max_vars insts - S (length chal)) * max_degree insts + e) (fun _ => false)); [apply at_most_none|]| |intros b Hb; exact Hb].
          * intros x _. cbn [finish_round v_last v_claims v_round vbind]. rewrite evaluate_recover_nil. eapply NEXT. apply STEP.
            apply SAME. rewrite RE. intros ia [].
          * cbn [Nat.add]. apply Nat.add_le_mono_r, Nat.mul_le_mono_r. lia.
        + destruct (with_degrees_bound F rem c a d rest (eq_sym I2)) as [DB1 DB2].
          destruct (cl_n c =? v_round v)%nat; [constructor|].
          apply sound_assoc. apply sound_bind_read. intros coeffs HL. cbn [vbind].
          assert (INR : forall ia, In ia rem -> In (fst ia) insts) by (intros ia Hia; rewrite <- I1; apply in_app_iff; right; now apply in_map).
          assert (DM : (d <= max_degree insts)%nat).
          { apply DB2. intros ia Hia. unfold max_degree. apply max_list_ge. apply (in_map (fun i => max_individual_degree (fst i))). auto. }
          assert (MV : (S (length chal) <= max_vars insts)%nat).
          { destruct rem as [|ia rem]; [discriminate I2|]. pose proof (LT ia (or_introl eq_refl)).
            assert (cl_n (fst (fst ia)) <= max_vars insts)%nat; [|lia]. unfold max_vars. apply max_list_ge.
            apply (in_map (fun i => cl_n (fst i))). apply INR. now left. }
          replace ((max_vars insts - length chal) * max_degree insts + e)%nat with (max_degree insts + ((max_vars insts - S (length chal)) * max_degree insts + e))%nat.
          2:{ replace (max_vars insts - length chal)%nat with (S (max_vars insts - S (length chal))) by lia. cbn [Nat.mul]. lia. }
          destruct d as [|d'].
          * destruct coeffs; [|discriminate]. apply (sound_sample F good _ _ (fun _ => false)); [apply at_most_none|]. intros x _.
            cbn [finish_round v_last v_claims v_round vbind]. rewrite evaluate_recover_nil. eapply NEXT. apply STEP.
            apply SAME. intros ia Hia. rewrite Forall_forall in DEGS. destruct (DEGS _ (INR ia Hia)) as [Z|G]; auto. specialize (DB1 ia Hia). lia.
          * destruct (TF_round done rem v sum chal evals I LT (S d') DB1) as [TP TE].
            destruct (feq_dec F sum (TF F o rem chal)) as [EQ|NE].
            -- apply (sound_sample F good _ _ (fun _ => false)); [apply at_most_none|]. intros x _.
               cbn [finish_round v_last v_claims v_round vbind]. eapply NEXT. apply STEP. intros EE. now specialize (I7 EE).
            -- destruct (round_in F (fun x => TF F o rem (chal ++ [x])) sum (S d') coeffs TP HL ltac:(lia)) as [b [B1 B2]]; [now rewrite TE|].
               apply (sound_sample F good _ _ b); [now apply at_most_le with (d := S d')|]. intros x Hx.
               cbn [finish_round v_last v_claims v_round vbind]. eapply NEXT. apply STEP. intros _. apply (B2 x Hx).
    Qed.

    (** A wrong claim shows in the evaluations. *)
    Lemma interleaved_claims_sound N : (max_vars insts <= N)%nat -> (exists i, In i insts /\ ~ claim_true i) ->
      sound (fun out => ~ truthful_front o insts (fst out)) (n_composites insts + max_vars insts * max_degree insts)
        (verify_interleaved arities dl fri N (map fst insts)).
    Proof.
      intros HN BAD. unfold verify_interleaved, bv_new. apply sound_assoc. rewrite map_length.
      apply (vsamples_sound F o []) with (is := insts) (s := 0) (t := 0); [left; reflexivity|now right|].
      intros coeffs LC NE. apply sound_bind0. intros v EV. destruct (new_prebatched_inv F _ _ _ _ EV) as [_ [LE ->]].
      set (sm := fold_left fadd (map (fun ca => claim_sum (snd ca) (fst ca)) (combine (map fst insts) coeffs)) 0) in *.
      assert (I0 : FInv F o insts [] (combine insts coeffs) (mkV (with_degrees (map fst insts) coeffs) 0 (SumV sm)) sm [] []).
      { constructor; cbn [v_claims v_round v_last length]; auto.
        - now apply map_fst_combine.
        - rewrite combine_claims, map_snd_combine by (rewrite ?map_length in LE; lia). reflexivity.
        - intros i [].
        - intros; lia.
        - intros _ E. apply NE. unfold sm in E. rewrite fold_left_fsum in E.
          transitivity (TF F o (combine insts coeffs) []); [exact E|].
          unfold TF. cbn [length]. transitivity (0 + fsum (map (fun ia : inst F * F => TV o (fst ia) (snd ia) [] (cl_n (fst (fst ia)) - 0)) (combine insts coeffs))); [ring|].
          f_equal. f_equal. apply map_ext. intros ia. now rewrite Nat.sub_0_r. }
      replace (max_vars insts * max_degree insts)%nat with ((max_vars insts - length (@nil F)) * max_degree insts + 0)%nat by (cbn [length]; rewrite Nat.sub_0_r; lia).
      eapply (interleaved_sums _ 0 N); [|exact I0|cbn [length]; lia]. clear I0 EV.
      intros done rem v sum chal evals comms I LN.
      apply (finish_claims_sound F o insts OKS _ _ chal) with (done := done) (rem := rem) (sum := sum); auto.
      clear I done rem v sum evals. intros done rem v sum evals I LT.
      apply sound_bind0. intros u HU. pose proof I as [I1 I2 I3 I4 I5 I6 I7].
      assert (NT : ~ truthful_front o insts (chal, evals)).
      { unfold truthful_front. cbn [fst snd]. intros TRU. destruct rem as [|[i a] rem].
        2:{ specialize (LT (i, a) (or_introl eq_refl)). cbn [fst] in LT.
            assert (cl_n (fst i) <= max_vars insts)%nat; [|lia]. unfold max_vars. apply max_list_ge.
            apply (in_map (fun i => cl_n (fst i))). rewrite <- I1. apply in_app_iff. right. now left. }
        cbn [map] in I1. rewrite app_nil_r in I1. subst done.
        unfold bv_finish in HU. rewrite I2, I4 in HU. cbn [map with_degrees] in HU.
        destruct (feqb_spec F sum 0) as [ES|]; cbn [negb] in HU; [|discriminate].
        apply I7; [|exact ES]. rewrite TRU. apply map_ext. intros i. now destruct o. }
      generalize (fri comms chal). clear -NT. intros p. induction p as [[x| |]|m q IH|q IH]; cbn [vbind]; try (constructor; auto; fail).
      apply (sound_sample F _ 0 0 (fun _ => false)); [apply at_most_none|auto].
    Qed.
  End Sums.

  (* ---------------------------------------------------------------- *)
  (** * The committed values *)
  Section Values.
    Variables (claims : list (claim F)) (ncs : list nat) (counts : list nat) (W : nat -> F) (N : nat).
    Hypothesis FITS : (batch_elems counts <= 2 ^ N)%nat.
    Hypothesis ST : StronglySorted lt (map cl_n claims).
    Hypothesis LN : length ncs = length claims.
    Hypothesis NCS : forall q c, nth_error claims q = Some c -> nth q ncs 0%nat = nth (cl_n c) counts 0%nat /\ (nth q ncs 0 <= cl_m c)%nat.
    Hypothesis ZERO : forall v, ~ In v (map cl_n claims) -> nth v counts 0%nat = 0%nat.

    (** The claimed values of the multilinears with [v] variables, in the order of the message. *)
    Definition lev (evals : list (list F)) (v : nat) : list F :=
      match find (fun p => cl_n (fst (fst p)) =? v)%nat (combine (combine claims ncs) evals) with
      | Some p => rev (firstn (snd (fst p)) (snd p))
      | None => []
      end.

    (** All claimed values of committed multilinears are right. *)
    Definition right_values (evals : list (list F)) (chal : list F) : Prop :=
      forall q c e, nth_error claims q = Some c -> nth_error evals q = Some e ->
        forall j, (j < nth q ncs 0)%nat ->
          nth j (rev (firstn (nth q ncs 0%nat) e)) 0 = mle (fun k => W (above counts (S (cl_n c)) + j * 2 ^ cl_n c + k)%nat) (firstn (cl_n c) chal).

    Definition lens_ok (evals : list (list F)) : Prop :=
      (length evals <= length claims)%nat /\
      forall q c e, nth_error claims q = Some c -> nth_error evals q = Some e -> length e = cl_m c.

    Lemma sorted_lt q q' c c' : nth_error claims q = Some c -> nth_error claims q' = Some c' -> (q < q')%nat -> (cl_n c < cl_n c')%nat.
    Proof.
      clear NCS LN ZERO. revert q q' ST. induction claims as [|a l IH]; intros [|q] [|q'] ST' E E' L; try discriminate; try lia.
      - cbn in E. injection E as ->. cbn in E'. cbn [map] in ST'. inversion ST' as [|? ? _ H]; subst. rewrite Forall_forall in H.
        apply H. apply in_map. eapply nth_error_In; eauto.
      - cbn [map] in ST'. inversion ST'; subst. cbn in E, E'. apply (IH q q'); auto. lia.
    Qed.

    Lemma sorted_inj q q' c c' : nth_error claims q = Some c -> nth_error claims q' = Some c' -> cl_n c = cl_n c' -> q = q'.
    Proof.
      intros E E' EN. destruct (Nat.lt_trichotomy q q') as [L|[->|L]]; auto; exfalso.
      - pose proof (sorted_lt _ _ _ _ E E' L). lia.
      - pose proof (sorted_lt _ _ _ _ E' E L). lia.
    Qed.

    Lemma lev_find evals v : lens_ok evals ->
      (forall q c e, nth_error claims q = Some c -> nth_error evals q = Some e -> cl_n c = v -> lev evals v = rev (firstn (nth q ncs 0%nat) e)) /\
      ((forall q c, nth_error claims q = Some c -> cl_n c = v -> (length evals <= q)%nat) -> lev evals v = []).
    Proof.
      intros [LE _]. unfold lev.
      assert (NE : forall q p, nth_error (combine (combine claims ncs) evals) q = Some p ->
        nth_error claims q = Some (fst (fst p)) /\ nth q ncs 0%nat = snd (fst p) /\ nth_error evals q = Some (snd p)).
      { clear -LN. revert ncs evals LN. induction claims as [|c l IH]; intros [|nc ncs] evals LN q p E; try discriminate; [destruct q; discriminate|].
        destruct evals as [|e evals]; [destruct q; discriminate|]. destruct q as [|q]; cbn in E |- *; [injection E as <-; auto|]. apply IH; auto. }
      destruct (find _ _) as [p|] eqn:EF.
      - apply find_some in EF as [IN EV]. apply Nat.eqb_eq in EV. apply In_nth_error in IN as [q0 E0]. destruct (NE _ _ E0) as (A1 & A2 & A3). split.
        + intros q c e Ec Ee EV'. assert (q = q0) by (eapply sorted_inj; eauto; congruence). subst q0. rewrite A2. rewrite A3 in Ee. injection Ee as <-. reflexivity.
        + intros H. specialize (H q0 _ A1 EV). apply nth_error_None in H. congruence.
      - split; [|auto]. intros q c e Ec Ee EV'. exfalso.
        assert (EP : nth_error (combine (combine claims ncs) evals) q = Some (c, nth q ncs 0%nat, e)).
        { clear -LN Ec Ee. revert ncs evals q LN Ec Ee. induction claims as [|c' l IH]; intros [|nc ncs] [|e' evals] [|q] LN Ec Ee; try discriminate; cbn in *; [congruence|]. apply IH; auto. }
        apply nth_error_In in EP. pose proof (find_none _ _ EF _ EP) as X. cbn in X. apply Nat.eqb_neq in X. congruence.
    Qed.

    Lemma lev_length evals v : lens_ok evals -> (forall q c, nth_error claims q = Some c -> cl_n c = v -> (q < length evals)%nat) ->
      length (lev evals v) = nth v counts 0%nat.
    Proof.
      intros LE H. destruct (lev_find evals v LE) as [L1 L2].
      destruct (in_dec Nat.eq_dec v (map cl_n claims)) as [IN|NI].
      - apply in_map_iff in IN as (c & EC & IN). apply In_nth_error in IN as [q Eq]. pose proof (H q c Eq EC) as HQ.
        destruct (nth_error evals q) as [e|] eqn:Ee; [|apply nth_error_None in Ee; lia].
        rewrite (L1 q c e) by auto. destruct (NCS q c Eq) as [E1 E2]. rewrite rev_length, firstn_length, (proj2 LE q c e) by auto. rewrite <- EC, <- E1. lia.
      - rewrite L2; [now rewrite ZERO|]. intros q c Eq EC. exfalso. apply NI. rewrite <- EC. apply in_map. eapply nth_error_In; eauto.
    Qed.

    (** Evaluations received so far do not change with later ones. *)
    Lemma lev_app evals e v : lens_ok (evals ++ [e]) -> (forall q c, nth_error claims q = Some c -> cl_n c = v -> (q < length evals)%nat) ->
      lev (evals ++ [e]) v = lev evals v.
    Proof.
      intros LE H. assert (LE' : lens_ok evals).
      { destruct LE as [A B]. rewrite app_length in A. cbn in A. split; [lia|]. intros q c e0 Ec Ee. apply (B q c e0 Ec). rewrite nth_error_app1; auto. apply nth_error_Some. congruence. }
      destruct (lev_find evals v LE') as [L1 L2], (lev_find (evals ++ [e]) v LE) as [M1 M2].
      destruct (in_dec Nat.eq_dec v (map cl_n claims)) as [IN|NI].
      - apply in_map_iff in IN as (c & EC & IN). apply In_nth_error in IN as [q Eq]. pose proof (H q c Eq EC) as HQ.
        destruct (nth_error evals q) as [e0|] eqn:Ee; [|apply nth_error_None in Ee; lia].
        rewrite (L1 q c e0), (M1 q c e0) by (auto; rewrite nth_error_app1; auto). reflexivity.
      - assert (X : forall q c, nth_error claims q = Some c -> cl_n c = v -> False).
        { intros q c Eq EC. apply NI. rewrite <- EC. apply in_map. eapply nth_error_In; eauto. }
        rewrite L2, M2; auto; intros q c Eq EC; destruct (X q c Eq EC).
    Qed.

    Lemma vb_ext (l l' : nat -> list F) i : (forall v, (v < i)%nat -> l v = l' v) -> vb F l i = vb F l' i.
    Proof.
      induction i as [|i IH]; intros H; [reflexivity|]. rewrite !vb_S, IH by (intros; apply H; lia). unfold consts. now rewrite H by lia.
    Qed.

    (** State before the claims with [length chal] variables are finished, and after. *)
    Record VInv (off : nat) (v : bverifier F) (chal : list F) (evals : list (list F)) : Prop :=
      { vi_claims : map (fun x => fst (fst x)) (v_claims v) = skipn (length evals) claims;
        vi_round : v_round v = length chal;
        vi_lens : lens_ok evals;
        vi_done : forall q c, (q < length evals)%nat -> nth_error claims q = Some c -> (cl_n c < off)%nat;
        vi_rem : forall q c, (length evals <= q)%nat -> nth_error claims q = Some c -> (off <= cl_n c)%nat;
        vi_values : right_values evals chal \/ differs F W N (length chal) (above counts off) (vb F (lev evals) off) chal }.

    Lemma dec_below (f g : nat -> F) m : (forall j, (j < m)%nat -> f j = g j) \/ exists j, (j < m)%nat /\ f j <> g j.
    Proof.
      induction m as [|m [IH|(j & Hj & NE)]]; [left; lia| |right; exists j; split; [lia|auto]].
      destruct (feq_dec F (f m) (g m)) as [E|NE]; [left|right; exists m; split; [lia|auto]].
      intros j Hj. destruct (Nat.eq_dec j m) as [->|]; auto. apply IH. lia.
    Qed.

    Lemma finish_values {B} (good : B -> Prop) e fuel v chal evals k :
      VInv (length chal) v chal evals ->
      (forall v' evals', VInv (S (length chal)) v' chal evals' -> sound good e (k (v', evals'))) ->
      sound good e (vbind (finish_claims fuel v evals) k).
    Proof.
      intros [V1 V2 V3 V4 V5 V6] HK. set (i := length chal) in *.
      (* no claim left with i variables *)
      assert (DONE : forall v' evals', map (fun x => fst (fst x)) (v_claims v') = skipn (length evals') claims -> v_round v' = i -> lens_ok evals' ->
        (forall q c, (q < length evals')%nat -> nth_error claims q = Some c -> (cl_n c < S i)%nat) ->
        (forall q c, (length evals' <= q)%nat -> nth_error claims q = Some c -> (S i <= cl_n c)%nat) ->
        (right_values evals' chal \/ differs F W N i (above counts i) (vb F (lev evals') i) chal) \/ differs F W N i (above counts (S i)) (vb F (lev evals') (S i)) chal ->
        VInv (S i) v' chal evals').
      { intros v' evals' A1 A2 A3 A4 A5 A6. constructor; auto. destruct A6 as [[A6|A6]|A6]; auto. right. apply differs_skip; auto.
        apply lev_length; auto. intros q c Eq EC. destruct (Nat.lt_ge_cases q (length evals')) as [|G]; auto. specialize (A5 q c G Eq). lia. }
      destruct fuel as [|fuel]; [constructor|]. cbn [finish_claims]. apply sound_assoc. unfold try_finish_claim.
      destruct (v_claims v) as [|[[c a] d] rest] eqn:EV.
      - cbn [vbind]. apply HK. cbn [map] in V1. apply DONE; auto.
        + rewrite EV. exact V1.
        + intros q c Hq Eq. specialize (V4 q c Hq Eq). lia.
        + intros q c Hq Eq. exfalso. assert (L := f_equal (@length _) V1). rewrite skipn_length in L. cbn in L. assert (q < length claims)%nat by (apply nth_error_Some; congruence). lia.
      - cbn [map fst] in V1. assert (EC : nth_error claims (length evals) = Some c).
        { clear -V1. revert V1. generalize (length evals) as m. intros m. revert m. induction claims as [|x l IH]; intros [|m] E; try discriminate; cbn in *; [congruence|]. now apply IH. }
        assert (ER : map (fun x => fst (fst x)) rest = skipn (S (length evals)) claims).
        { clear -V1. revert V1. generalize (length evals) as m. intros m. revert m. induction claims as [|x l IH]; intros [|m] E; try discriminate; cbn in *; [congruence|]. now apply IH. }
        rewrite V2. destruct (Nat.compare_spec (cl_n c) i) as [E|L|G].
        + apply sound_assoc. apply sound_bind_read. intros el HL. destruct (v_last v) as [cf|sm]; [constructor|].
          apply sound_assoc. apply sound_bind0. intros expected HE. cbn [vbind].
          assert (LE' : lens_ok (evals ++ [el])).
          { destruct V3 as [A B0]. assert (length evals < length claims)%nat by (apply nth_error_Some; congruence). split; [rewrite app_length; cbn; lia|].
            intros q c' e' Ec' Ee'. destruct (Nat.lt_ge_cases q (length evals)) as [Q|Q]; [rewrite nth_error_app1 in Ee' by auto; eauto|].
            rewrite nth_error_app2 in Ee' by auto. destruct (q - length evals)%nat as [|r] eqn:EQ; [|destruct r; discriminate]. cbn in Ee'. injection Ee' as <-.
            assert (q = length evals) by lia. subst q. rewrite EC in Ec'. injection Ec' as <-. exact HL. }
          assert (NX : forall q c', (S (length evals) <= q)%nat -> nth_error claims q = Some c' -> (S i <= cl_n c')%nat).
          { intros q c' Hq Eq. pose proof (sorted_lt _ _ _ _ EC Eq ltac:(lia)). lia. }
          assert (FIN : VInv (S i) (mkV rest i (SumV (sm - expected))) chal (evals ++ [el])).
          { apply DONE; cbn [v_claims v_round]; auto.
            - rewrite ER, app_length. cbn [length]. now rewrite Nat.add_1_r.
            - rewrite app_length. cbn [length]. intros q c' Hq Eq. destruct (Nat.lt_ge_cases q (length evals)) as [Q|Q]; [specialize (V4 q c' Q Eq); lia|].
              assert (q = length evals) by lia. subst q. rewrite EC in Eq. injection Eq as <-. lia.
            - rewrite app_length. cbn [length]. intros q c' Hq Eq. apply (NX q c'); auto. lia.
            - assert (LEV : forall v0, (v0 < i)%nat -> lev (evals ++ [el]) v0 = lev evals v0).
              { intros v0 Hv. apply lev_app; auto. intros q c' Eq Ev. destruct (Nat.lt_ge_cases q (length evals)) as [|Q]; auto. specialize (V5 q c' Q Eq). lia. }
              destruct V6 as [R|D].
              + set (m := nth (length evals) ncs 0%nat).
                (* compare the new values with those of the message *)
                assert (DEC : (forall j, (j < m)%nat -> nth j (rev (firstn m el)) 0 = mle (fun k0 => W (above counts (S (cl_n c)) + j * 2 ^ cl_n c + k0)%nat) (firstn (cl_n c) chal)) \/
                  exists j, (j < m)%nat /\ nth j (rev (firstn m el)) 0 <> mle (fun k0 => W (above counts (S (cl_n c)) + j * 2 ^ cl_n c + k0)%nat) (firstn (cl_n c) chal)).
                { exact (dec_below (fun j => nth j (rev (firstn m el)) 0) (fun j => mle (fun k0 => W (above counts (S (cl_n c)) + j * 2 ^ cl_n c + k0)%nat) (firstn (cl_n c) chal)) m). }
                destruct DEC as [OK|(j & Hj & NE)].
                * left. left. intros q c' e' Ec' Ee' j Hj. destruct (Nat.lt_ge_cases q (length evals)) as [Q|Q]; [rewrite nth_error_app1 in Ee' by auto; eapply R; eauto|].
                  rewrite nth_error_app2 in Ee' by auto. destruct (q - length evals)%nat as [|r] eqn:EQ; [|destruct r; discriminate]. cbn in Ee'. injection Ee' as <-.
                  assert (q = length evals) by lia. subst q. rewrite EC in Ec'. injection Ec' as <-. apply OK. exact Hj.
                * right. rewrite E in NE. unfold i in NE at 3. rewrite firstn_all in NE. destruct (NCS _ _ EC) as [NC1 NC2]. fold m in NC1, NC2.
                  apply (differs_new F counts W N FITS i (lev (evals ++ [el])) chal j); auto.
                  -- apply lev_length; auto. rewrite app_length. cbn [length]. intros q c' Eq Ev. destruct (Nat.lt_ge_cases q (length evals + 1)) as [|Q]; auto. specialize (NX q c' ltac:(lia) Eq). lia.
                  -- rewrite <- E, <- NC1. exact Hj.
                  -- rewrite (proj1 (lev_find (evals ++ [el]) i LE') (length evals) c el); auto.
                     ++ rewrite nth_error_app2, Nat.sub_diag by auto. reflexivity.
              + left. right. rewrite (vb_ext _ (lev evals)) by auto. exact D. }
          destruct fuel as [|fuel]; [constructor|]. cbn [finish_claims]. apply sound_assoc. unfold try_finish_claim. cbn [v_claims v_round].
          destruct rest as [|[[c2 a2] d2] rest2]; [cbn [vbind]; now apply HK|].
          assert (E2 : nth_error claims (S (length evals)) = Some c2).
          { clear -ER. cbn [map fst] in ER. revert ER. generalize (S (length evals)) as m. intros m. revert m. induction claims as [|x l IH]; intros [|m] E; try discriminate; cbn in *; [congruence|]. now apply IH. }
          specialize (NX _ _ (le_n _) E2). destruct (Nat.compare_spec (cl_n c2) i); [lia|lia|]. cbn [vbind]. now apply HK.
        + constructor.
        + cbn [vbind]. apply HK. apply DONE; auto.
          * rewrite EV. cbn [map fst]. exact V1.
          * intros q c' Hq Eq. specialize (V4 q c' Hq Eq). lia.
          * intros q c' Hq Eq. destruct (Nat.eq_dec q (length evals)) as [->|NE]; [rewrite EC in Eq; injection Eq as <-; lia|].
            pose proof (sorted_lt _ _ _ _ EC Eq ltac:(lia)). lia.
    Qed.

    Lemma right_snoc evals chal x off : (forall q c, (q < length evals)%nat -> nth_error claims q = Some c -> (cl_n c < off)%nat) -> (off <= S (length chal))%nat ->
      right_values evals chal -> right_values evals (chal ++ [x]).
    Proof.
      intros HD HO H q c e Ec Ee j Hj. rewrite (H q c e Ec Ee j Hj). f_equal.
      assert (cl_n c < off)%nat by (apply (HD q c); auto; apply nth_error_Some; congruence).
      rewrite firstn_app. replace (cl_n c - length chal)%nat with 0%nat by lia. cbn [firstn]. now rewrite app_nil_r.
    Qed.

    Lemma interleaved_values {B} (good : B -> Prop) e k :
      (forall v chal evals comms, VInv (length chal) v chal evals -> length chal = N -> sound good e (k (v, chal, evals, comms))) ->
      forall n round next ars comms v chal evals, VInv (length chal) v chal evals -> (n + length chal = N)%nat ->
        sound good (n + e) (vbind (interleaved dl n round next ars v chal evals comms) k).
    Proof.
      intros HK n. induction n as [|n IH]; intros round next ars comms v chal evals I HN; cbn [interleaved]; [now apply HK|].
      apply sound_assoc. apply (finish_values good _ _ v chal evals); auto. clear I v evals. intros v evals I.
      apply sound_assoc. apply (sound_bind F (fun v' => v_claims v' = v_claims v /\ v_round v' = v_round v) good 0).
      { unfold receive_round_proof. destruct (v_last v); [constructor|]. destruct (v_claims v) as [|[[c a] d] rest].
        - cbn [vbind]. constructor. intros l Hl. constructor. auto.
        - destruct (cl_n c =? v_round v)%nat; [constructor|]. constructor. intros l Hl. constructor. auto. }
      intros v' [EC ER]. apply sound_assoc. destruct I as [V1 V2 V3 V4 V5 V6].
      assert (NEXT : forall x v'', v_claims v'' = v_claims v -> v_round v'' = S (v_round v) ->
          (right_values evals chal \/ differs F W N (S (length chal)) (above counts (S (length chal))) (vb F (lev evals) (S (length chal))) (chal ++ [x])) ->
          sound good (n + e)
            (vbind (if match next with Some r => (r =? round + 1)%nat | None => false end then
                get comm <- vread dl;
                interleaved dl n (S round) (match ars with [] => None | a :: _ => Some (round + 1 + a)%nat end) (tl ars) v'' (chal ++ [x]) evals (comms ++ [comm])
              else interleaved dl n (S round) next ars v'' (chal ++ [x]) evals comms) k)).
      { intros x v'' E1 E2 HV. assert (I : VInv (length (chal ++ [x])) v'' (chal ++ [x]) evals).
        { replace (length (chal ++ [x])) with (S (length chal)) by (rewrite app_length; cbn; lia). constructor; auto.
          - now rewrite E1.
          - rewrite app_length. cbn. lia.
          - destruct HV as [R|D]; [left; eapply right_snoc; eauto|right]. replace (length (chal ++ [x])) with (S (length chal)) by (rewrite app_length; cbn; lia). exact D. }
        destruct (match next with Some r => _ | None => false end).
        - apply sound_assoc. apply sound_bind_read. intros comm _. apply IH; auto. rewrite app_length. cbn. lia.
        - apply IH; auto. rewrite app_length. cbn. lia. }
      assert (FR : forall x bad e', (bad x = false -> forall v'', v_claims v'' = v_claims v -> v_round v'' = S (v_round v) -> sound good e' (vbind
            (if match next with Some r => (r =? round + 1)%nat | None => false end then
                get comm <- vread dl;
                interleaved dl n (S round) (match ars with [] => None | a :: _ => Some (round + 1 + a)%nat end) (tl ars) v'' (chal ++ [x]) evals (comms ++ [comm])
              else interleaved dl n (S round) next ars v'' (chal ++ [x]) evals comms) k)) -> bad x = false ->
          sound good e' (vbind (get v0 <- VRet (finish_round v' x); if match next with Some r => (r =? round + 1)%nat | None => false end then
                get comm <- vread dl;
                interleaved dl n (S round) (match ars with [] => None | a :: _ => Some (round + 1 + a)%nat end) (tl ars) v0 (chal ++ [x]) evals (comms ++ [comm])
              else interleaved dl n (S round) next ars v0 (chal ++ [x]) evals comms) k)).
      { intros x bad e' H HB. apply sound_assoc. apply sound_bind0. intros v'' EF. unfold finish_round in EF. destruct (v_last v'); [|discriminate]. injection EF as <-.
        apply H; auto; cbn [v_claims v_round]; congruence. }
      destruct V6 as [R|D].
      - apply (sound_bind_sample F good 1 (n + e) (fun _ => false)); [apply at_most_none|]. intros x Hx.
        apply (FR x (fun _ => false)); auto.
      - destruct (differs_round F counts W N FITS (length chal) (vb F (lev evals) (S (length chal))) chal eq_refl ltac:(lia) D) as (bad & AM & HB).
        apply (sound_bind_sample F good 1 (n + e) bad); [exact AM|]. intros x Hx. apply (FR x bad); auto.
    Qed.

    Lemma interleaved_values_sound :
      sound (fun out => length (fst (fst out)) = N /\ length (snd (fst out)) = length claims /\ lens_ok (snd (fst out)) /\
               (right_values (snd (fst out)) (fst (fst out)) \/
                mle W (fst (fst out)) <> mle (fun x => nth x (vb F (lev (snd (fst out))) (S N)) 0) (fst (fst out)))) N
        (verify_interleaved arities dl fri N claims).
    Proof.
      unfold verify_interleaved. apply (sound_bind F (fun v => map (fun x => fst (fst x)) (v_claims v) = claims /\ v_round v = 0%nat) _ 0 N).
      { unfold bv_new. apply (sound_bind F _ _ 0 0 _ _ (vsamples_len F _)). intros coeffs HL.
        unfold new_prebatched. destruct (is_sorted_ascending _); cbn [negb]; [|constructor]. destruct (_ =? _)%nat; cbn [negb]; [|constructor].
        constructor. cbn [v_claims v_round]. split; [apply with_degrees_claims; auto|reflexivity]. }
      intros v [EC ER]. eapply (sound_mono F _ _ (N + 0)); [|lia|intros a Ha; exact Ha].
      apply (interleaved_values _ 0); [|constructor; cbn [length]; auto|cbn [length]; lia].
      2:{ split; [cbn; lia|]. intros q c e _ E. destruct q; discriminate. }
      2:{ intros; lia. }
      2:{ intros; lia. }
      2:{ left. intros q c e _ E. destruct q; discriminate. }
      clear v EC ER. intros v chal evals comms I HN. apply (finish_values _ _ _ v chal evals); auto. clear I v evals. intros v evals I.
      apply sound_bind0. intros u HU. destruct I as [V1 V2 V3 V4 V5 V6].
      assert (LE : length evals = length claims).
      { unfold bv_finish in HU. destruct (v_claims v); [|discriminate]. cbn [map] in V1. assert (L := f_equal (@length _) V1). rewrite skipn_length in L. cbn in L. destruct V3 as [A _]. lia. }
      assert (G : right_values evals chal \/ mle W chal <> mle (fun x => nth x (vb F (lev evals) (S N)) 0) chal).
      { destruct V6 as [R|D]; [now left|right]. rewrite HN in D. apply (differs_end F counts W N FITS); auto. }
      generalize (fri comms chal). clear -HN LE V3 G. intros p. induction p as [[x| |]|m q IH|q IH]; cbn [vbind]; try (constructor; auto; fail).
      apply (sound_sample F _ 0 0 (fun _ => false)); [apply at_most_none|auto].
    Qed.
  End Values.
End Interleaved.
