(** The prover state: folding, finishing and the round coefficients. *)
Require Import Coq.setoid_ring.Ring Coq.Arith.Arith Coq.Lists.List Coq.Bool.Bool Coq.Sorting.Permutation Lia.
From Verif Require Import Base.Fld Base.Lists Base.Sums Base.Poly Base.NatBits Math.MleSpec Math.MleModel Math.MleProofs Math.MleProps
  Math.TensorProps Math.UnivariateModel Math.UnivariateProps Math.SubcubeModel Math.SubcubeProps
  Sumcheck.SumcheckModel Sumcheck.SumcheckSpec Sumcheck.SumcheckProofs Sumcheck.BatchProverModel Sumcheck.BatchProverProofs
  Sumcheck.StateModel Sumcheck.FoldProofs Sumcheck.RoundProofs.
Import ListNotations.

Section Proofs.
  Variable F : field.
  Variable lw mb : nat.
  Variable junk : nat -> list F.
  Hypothesis junk_length : forall n, length (junk n) = n.
  Local Open Scope fld_scope.
  Add Ring Fring : (f_ring F).

  Definition is_transp (m : smle F) : Prop := match m with Transp _ _ _ _ => True | _ => False end.

  (** Invariant of the tensor query.  [cap]: largest switchover. *)
  Definition query_inv (o : order) (n cap : nat) (p : list F) (ms : list (smle F)) (tq : option (mquery F)) : Prop :=
    (forall q sw a b, In (Transp q sw a b) ms -> (length p + sw <= cap)%nat) /\
    match tq with
    | None => forall m, In m ms -> ~ is_transp m
    | Some q => (exists m, In m ms /\ is_transp m) /\
                exists c, query_holds lw c q (pt o p) /\ (o = LowToHigh -> c = (Nat.min cap n + 1 - lw)%nat)
    end.

  Lemma query_inv_ok o n cap p ms tq : query_inv o n cap p ms tq -> (exists m, In m ms /\ is_transp m) -> query_ok F lw o p tq.
  Proof.
    intros [_ H] [m [I T]]. destruct tq as [q|]; [|exfalso; exact (H m I T)].
    destruct H as [_ [c [H _]]]. exists q, c. auto.
  Qed.

  (** Invariant of the state between rounds, after the challenges [p] with [k] variables left. *)
  Definition sinv (o : order) (n cap : nat) (vs : list (nat -> F)) (points : list F) (p : list F) (k : nat) (s : pstate F) : Prop :=
    length p = (n - k)%nat /\ (k <= n)%nat /\ ps_n s = k /\ ps_order s = o /\ ps_points s = points /\ ps_challenges s = pt o p /\
    Forall2 (fun v m => rep F lw o n v p k m) vs (ps_ms s) /\ query_inv o n cap p (ps_ms s) (ps_query s).

  Lemma fold_one_ok o n v p k r tq m : length p = (n - S k)%nat -> (S k <= n)%nat ->
    rep F lw o n v p (S k) m -> (is_transp m -> query_ok F lw o (p ++ [r]) tq) ->
    exists mb', (match o with LowToHigh => fold_low_to_high lw mb | HighToLow => fold_high_to_low lw mb junk end) (S k) r tq m = Ok mb' /\
      rep F lw o n v (p ++ [r]) k (fst mb') /\ (snd mb' = true <-> is_transp (fst mb')) /\
      (forall q sw a b, fst mb' = Transp q sw a b -> exists q' a' b', m = Transp q' (S sw) a' b').
  Proof.
    intros Lp Hk HR HQ.
    assert (G : forall m' b, 
      b = match m' with Transp _ _ _ _ => true | _ => false end ->
      match m, m' with
      | Transp _ sw _ _, Transp _ sw' _ _ => sw = S sw'
      | Transp _ sw _ _, Folded _ _ => sw = 0%nat
      | Folded _ _, Transp _ _ _ _ => False
      | _, _ => True
      end -> (b = true <-> is_transp m') /\ (forall q sw a b, m' = Transp q sw a b -> exists q' a' b', m = Transp q' (S sw) a' b')).
    { intros m' b -> H. split; [destruct m'; cbn; split; auto; discriminate|].
      intros q sw a b ->. destruct m; [|destruct H]. subst. eauto. }
    destruct o.
    - destruct (fold_low_ok F lw mb n v p k r tq m Lp Hk HR) as [m' [b [E [R [B T]]]]]; [destruct m; auto; now apply HQ|].
      exists (m', b). cbn [fst snd]. auto.
    - destruct (fold_high_ok F lw mb junk junk_length n v p k r tq m Lp Hk HR) as [m' [b [E [R [B T]]]]]; [destruct m; auto; now apply HQ|].
      exists (m', b). cbn [fst snd]. auto.
  Qed.

  (** C37: a fold substitutes the challenge in every multilinear and evaluates the round polynomials. *)
  Theorem ps_fold_ok o n cap vs points p k s r cs : sinv o n cap vs points p (S k) s -> ps_last s = Coeffs cs ->
    exists s', ps_fold lw mb junk s r = Ok s' /\ sinv o n cap vs points (p ++ [r]) k s' /\ ps_last s' = Sums (map (fun c => peval c r) cs).
  Proof.
    intros [Lp [Hk [PN [PO [PP [PC [HR [QC HQ]]]]]]]] PL. unfold ps_fold. rewrite PN, PL. cbn [Nat.eqb].
    rewrite PO, PC.
    assert (CH : match o with LowToHigh => pt o p ++ [r] | HighToLow => r :: pt o p end = pt o (p ++ [r])).
    { destruct o; cbn [pt]; [reflexivity|]. now rewrite rev_app_distr. }
    rewrite CH.
    (* the query *)
    assert (TQ : exists tq, (match ps_query s with
                 | None => Ok None
                 | Some q => match o with
                             | LowToHigh => try q' <- query_update lw q [r]; Ok (Some q')
                             | HighToLow => try q' <- query_expand lw (pt o (p ++ [r])); Ok (Some q')
                             end
                 end) = Ok tq /\
       match tq with None => forall m, In m (ps_ms s) -> ~ is_transp m
       | Some q => exists c, query_holds lw c q (pt o (p ++ [r])) /\ (o = LowToHigh -> c = (Nat.min cap n + 1 - lw)%nat) end).
    { destruct (ps_query s) as [q|]; [|exists None; auto].
      destruct HQ as [[m [Im Tm]] [c [HQ HC]]]. destruct o.
      - pose proof (query_update_correct F lw c q (pt LowToHigh p) [r] HQ) as U. cbn [pt length] in U.
        destruct m as [q0 sw a b|]; [|destruct Tm]. specialize (QC _ _ _ _ Im). specialize (HC eq_refl).
        rewrite (proj2 (Nat.leb_le _ _)) in U by lia.
        destruct U as [q' [E H]]. rewrite E. cbn [rbind]. exists (Some q'). split; auto. exists c. auto.
      - destruct (query_expand_correct F lw (pt HighToLow (p ++ [r]))) as [q' [E H]]. rewrite E. cbn [rbind].
        exists (Some q'). split; auto. eexists. split; [exact H|]. discriminate. }
    destruct TQ as [tq [-> TQ]]. cbn [rbind].
    unfold fold_multilinears.
    set (fone := (match o with LowToHigh => fold_low_to_high lw mb | HighToLow => fold_high_to_low lw mb junk end) (S k) r tq).
    assert (ALL : exists l, collect_res (map fone (ps_ms s)) = Ok l /\
       Forall2 (fun v mb' => rep F lw o n v (p ++ [r]) k (fst mb') /\ (snd mb' = true <-> is_transp (fst mb')) /\
         (forall q sw a b, fst mb' = Transp q sw a b -> exists q' a' b', In (Transp q' (S sw) a' b') (ps_ms s))) vs l).
    { assert (TQ' : forall m, In m (ps_ms s) -> is_transp m -> query_ok F lw o (p ++ [r]) tq).
      { intros m Im Tm. destruct tq as [q|]; [|exfalso; exact (TQ m Im Tm)]. destruct TQ as [c [H _]]. exists q, c. auto. }
      clear - HR TQ' Lp Hk junk_length.
      assert (G : forall l, Forall2 (fun v m => rep F lw o n v p (S k) m) vs l -> incl l (ps_ms s) ->
        exists l', collect_res (map fone l) = Ok l' /\
         Forall2 (fun v mb' => rep F lw o n v (p ++ [r]) k (fst mb') /\ (snd mb' = true <-> is_transp (fst mb')) /\
         (forall q sw a b, fst mb' = Transp q sw a b -> exists q' a' b', In (Transp q' (S sw) a' b') (ps_ms s))) vs l').
      { clear HR. induction 1 as [|v m vs' l R H IH]; intros HI; [exists []; split; [reflexivity|constructor]|].
        destruct IH as [l' [E FA]]; [intros x Hx; apply HI; now right|].
        destruct (fold_one_ok o n v p k r tq m Lp Hk R) as [mb' [E' [R' [B' T']]]]; [apply TQ', HI; now left|].
        exists (mb' :: l'). cbn [map collect_res]. unfold fone at 1. rewrite E'. cbn [rbind]. rewrite E. cbn [rbind]. split; auto.
        constructor; auto. split; auto. split; auto. intros q sw a b Em. destruct (T' q sw a b Em) as [q' [a' [b' ->]]].
        exists q', a', b'. apply HI. now left. }
      apply G; auto. apply incl_refl. }
    destruct ALL as [l [E FA]]. rewrite E. cbn [rbind fst snd]. eexists. split; [reflexivity|]. cbn [ps_last].
    split; [|now rewrite (map_ext _ _ (fun c => evaluate_univariate_correct F c r))].
    unfold sinv. cbn [ps_n ps_order ps_points ps_challenges ps_ms ps_query].
    rewrite app_length. cbn [length]. split; [lia|]. split; [lia|]. split; [lia|]. split; auto. split; auto. split; auto. split.
    - clear - FA. induction FA as [|v m vs l H FA IH]; cbn [map]; constructor; auto. apply H.
    - assert (TR : forall q sw a b, In (Transp q sw a b) (map fst l) -> exists q' a' b', In (Transp q' (S sw) a' b') (ps_ms s)).
      { intros q sw a b HI. apply in_map_iff in HI as [mb' [Em Im]]. clear - FA Em Im.
        induction FA as [|v m vs l H FA IH]; [destruct Im|]. destruct Im as [->|Im]; [|auto]. destruct H as [_ [_ H]]. eauto. }
      split.
      + intros q sw a b HI. destruct (TR q sw a b HI) as [q' [a' [b' I']]]. specialize (QC _ _ _ _ I').
        rewrite app_length. cbn [length]. lia.
      + assert (EX : existsb snd l = true <-> exists m, In m (map fst l) /\ is_transp m).
        { clear - FA. induction FA as [|v mb' vs l H FA IH]; cbn [map existsb].
          - split; [discriminate|]. intros [m [[] _]].
          - destruct H as [_ [H _]]. rewrite orb_true_iff, H, IH. split.
            + intros [T|[m [I T]]]; [exists (fst mb'); split; auto; now left|exists m; split; auto; now right].
            + intros [m [[<-|I] T]]; [now left|right; eauto]. }
        destruct (existsb snd l) eqn:EE.
        * destruct (proj1 EX eq_refl) as [m [I T]]. destruct tq as [q|].
          -- split; auto. exists m. auto.
          -- destruct m as [q sw a b|]; [|destruct T]. destruct (TR _ _ _ _ I) as [q' [a' [b' I']]]. exfalso. apply (TQ _ I'). exact Logic.I.
        * intros m I T. assert (true = false); [|discriminate]. symmetry. apply EX. eauto.
  Qed.

  (** C37: at the end the evaluations of the multilinears at the challenge point are returned. *)
  Theorem ps_finish_ok o n cap vs points p s sums : sinv o n cap vs points p 0 s -> ps_last s = Sums sums ->
    ps_finish lw s = Ok (map (fun v => mle v (pt o p)) vs).
  Proof.
    intros [Lp [Hk [PN [PO [PP [PC [HR [QC HQ]]]]]]]] PL. unfold ps_finish. rewrite PL, PN. cbn [Nat.eqb negb].
    assert (TQ' : forall m, In m (ps_ms s) -> is_transp m -> query_ok F lw o p (ps_query s)).
    { intros m Im Tm. destruct (ps_query s) as [q|]; [|exfalso; exact (HQ m Im Tm)]. destruct HQ as [_ [c [H _]]]. exists q, c. auto. }
    assert (G : forall l, Forall2 (fun v m => rep F lw o n v p 0 m) vs l -> incl l (ps_ms s) ->
      collect_res (map (fun m => match m with
        | Transp p _ _ _ => try q <- of_opt (ps_query s); me_evaluate (mp_lw p) lw (mp_mle p) q
        | Folded evals suffix => Ok (match evals with [] => suffix | x :: _ => x end)
        end) l) = Ok (map (fun v => mle v (pt o p)) vs)).
    { clear - TQ' Lp. induction 1 as [|v m vs' l R H IH]; intros HI; [reflexivity|]. cbn [map collect_res].
      rewrite IH by (intros x Hx; apply HI; now right).
      assert (EM : match m with
        | Transp p _ _ _ => try q <- of_opt (ps_query s); me_evaluate (mp_lw p) lw (mp_mle p) q
        | Folded evals suffix => Ok (match evals with [] => suffix | x :: _ => x end)
        end = Ok (mle v (pt o p))); [|now rewrite EM].
      assert (LP : length (pt o p) = length p) by (destruct o; cbn [pt]; auto; apply rev_length).
      destruct m as [q sw suffix slen|evals suffix].
      - destruct (TQ' (Transp q sw suffix slen)) as [tq [c [-> HQ]]]; [apply HI; now left|exact I|]. cbn [of_opt rbind].
        destruct R as [PO [MU [SL [TV _]]]].
        rewrite (evaluate_correct F (mp_lw q) lw c (mp_mle q) tq (pt o p) (proj1 PO) HQ), LP, Lp, MU, Nat.sub_0_r, Nat.eqb_refl.
        f_equal. apply mle_ext. intros x Hx. apply TV. rewrite LP, Lp, Nat.sub_0_r in Hx. exact Hx.
      - destruct R as [_ HV]. specialize (HV 0%nat ltac:(cbn; lia)).
        assert (CV : cur F o v p 0 0 = mle v (pt o p)) by (destruct o; cbn [cur vertex pt app]; [now rewrite app_nil_r|reflexivity]).
        rewrite CV in HV. destruct evals; cbn in HV; now rewrite HV. }
    apply G; auto. apply incl_refl.
  Qed.

  (** C37: the state of a new prover, with all multilinears given by their tables. *)
  Theorem ps_new_ok o n (vs : list (nat -> F)) (ms : list (mpoly F)) (sw : mpoly F -> nat) sums points :
    Forall2 (fun v m => poly_ok F lw m /\ me_mu (mp_mle m) = n /\ forall x, (x < 2 ^ n)%nat -> table (mp_mle m) x = v x) vs ms ->
    exists s cap, ps_new lw o n (map (fun m => transparent m (sw m)) ms) sums points = Ok s /\
      sinv o n cap vs points [] n s /\ ps_last s = Sums sums.
  Proof.
    intros H. unfold ps_new.
    assert (NE : existsb (fun m => match m with
                         | Transp p _ _ l => negb (me_mu (mp_mle p) =? n)%nat || (2 ^ n <? l)%nat
                         | Folded evals _ => (2 ^ (n - lw) <? length evals / 2 ^ lw)%nat
                         end) (map (fun m => transparent m (sw m)) ms) = false).
    { clear - H. induction H as [|v m vs ms [_ [M _]] H IH]; [reflexivity|]. cbn [map existsb transparent]. rewrite IH, M, Nat.eqb_refl. reflexivity. }
    rewrite NE. clear NE.
    assert (RP : Forall2 (fun v m => rep F lw o n v [] n m) vs (map (fun m => transparent m (sw m)) ms)).
    { clear - H. induction H as [|v m vs ms [P [M T]] H IH]; cbn [map]; constructor; auto. cbn [transparent rep].
      split; auto. split; auto. split; [lia|]. split; auto. intros x Hx. lia. }
    assert (SWS : switchovers (map (fun m => transparent m (sw m)) ms) = map sw ms).
    { clear. induction ms as [|m ms IH]; [reflexivity|]. cbn [map switchovers transparent flat_map app]. f_equal. exact IH. }
    rewrite SWS.
    assert (MX : forall l a x, In x (a :: l) -> (x <= fold_left Nat.max l a)%nat).
    { clear. induction l as [|b l IH]; intros a x HI; cbn [fold_left].
      - destruct HI as [->|[]]. lia.
      - destruct HI as [->|[->|HI]].
        + etransitivity; [|apply IH; now left]. lia.
        + etransitivity; [|apply IH; now left]. lia.
        + apply IH. now right. }
    eexists _, (fold_left Nat.max (tl (map sw ms)) (hd 0%nat (map sw ms))).
    split; [reflexivity|]. split; [|reflexivity].
    unfold sinv. cbn [ps_n ps_order ps_points ps_challenges ps_ms ps_query length].
    split; [lia|]. split; auto. split; auto. split; auto. split; auto. split; [now destruct o|]. split; auto. split.
    - intros q s a b HI. apply in_map_iff in HI as [m [E Im]]. injection E as <- <- _ _. cbn [length Nat.add].
      destruct ms as [|m0 ms]; [destruct Im|]. cbn [map hd tl]. apply MX. destruct Im as [->|Im]; [now left|right; now apply in_map].
    - destruct ms as [|m0 ms]; cbn [map].
      + intros m [].
      + split; [exists (transparent m0 (sw m0)); split; [now left|exact I]|].
        exists (Nat.min (fold_left Nat.max (map sw ms) (sw m0)) n + 1 - lw)%nat. split; [|auto].
        replace (pt o []) with (@nil F) by (now destruct o). apply with_capacity_holds.
  Qed.
End Proofs.
