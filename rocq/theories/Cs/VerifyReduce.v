(** C74: the claims about flush oracles are reduced to claims about their columns. *)
Require Import Coq.Arith.Arith Coq.Lists.List Coq.Bool.Bool Lia.
From Verif Require Import Base.Fld Base.Lists Base.Sums Math.MleSpec Math.ArithModel Field.TowerProofs
  Transparent.TransparentModel Protocol.Proto Protocol.Soundness Cs.FlushModel Cs.VerifyFlush
  Evalcheck.OracleModel Evalcheck.EvalModel Evalcheck.EvalSpec Evalcheck.EvalProofs Evalcheck.EvalReduce
  Evalcheck.GreedyModel Evalcheck.GreedyWork Evalcheck.GreedySets Evalcheck.GreedyStages Evalcheck.GreedyProps Cs.VerifyModel.
Import ListNotations.

Section Reduce.
  Variable L D : nat.
  Notation F := (TF L).
  Notation claim := (EvalModel.claim L).
  Notation claim_true := EvalSpec.claim_true.

  Fixpoint position (p : list F) (ms : list (list F * builder L)) : nat :=
    match ms with [] => 0 | (q, _) :: ms => if point_eqb q p then 0 else S (position p ms) end.
  Lemma position_point p ms q b : nth_error ms (position p ms) = Some (q, b) -> q = p.
  Proof.
    induction ms as [|[q' b'] ms IH]; cbn [position]; [discriminate|]. destruct (point_eqb q' p) eqn:E; cbn [nth_error]; [|exact IH].
    intros [= -> ->]. now apply point_eqb_eq.
  Qed.
  Lemma add_at_point_spec p ids c e (ms : list (list F * builder L)) : add_at_point L p ids c e ms = add_composite_sumcheck (position p ms) p ms ids c e.
  Proof.
    unfold add_composite_sumcheck. induction ms as [|[q b] ms IH]; cbn [add_at_point position]; [reflexivity|].
    destruct (point_eqb q p) eqn:E; cbn [nth_error upd]; [reflexivity|]. rewrite IH. now destruct (nth_error ms (position p ms)) as [[q' b']|].
  Qed.

  Lemma group_spec (os : oset L) claims : forall ms lin ms', let st := set_mles ms (vnew os) in let st' := set_mles ms' (vnew os) in
    vstate_ok st -> tracked D st -> (forall c, In c claims -> claim_sized os c) ->
    group_claims L os claims ms = Ok (lin, ms') ->
    vstate_ok st' /\ tracked D st' /\ incl lin claims /\
    (claims_work L D os lin + mles_work D os ms' = mles_work D os ms + claims_work L D os claims)%nat /\
    forall V, consistent os V -> obligations V st' -> (forall c, In c lin -> claim_true V c) -> obligations V st /\ forall c, In c claims -> claim_true V c.
  Proof.
    induction claims as [|c claims IH]; intros ms lin ms' st st' HS HT HC E; cbn [group_claims] in E.
    - injection E as <- <-. split; [exact HS|]. split; [exact HT|]. split; [intros ? []|]. split; [unfold claims_work, ids_work; cbn; lia|]. intros V C O _. split; [exact O|intros ? []].
    - destruct (HC c (or_introl eq_refl)) as (o & Eo & En). rewrite (oget_ok L _ _ _ Eo) in E. cbn [rbind] in E.
      assert (W : claims_work L D os (c :: claims) = (work D os (c_id c) + claims_work L D os claims)%nat) by reflexivity.
      assert (HC' : forall c', In c' claims -> claim_sized os c') by (intros; apply HC; now right).
      destruct (o_variant o) as [|poly|circ|i k|i vs s|i off b sv|i d|m off inner|i pad nz s|m ids circ] eqn:EV; try discriminate.
      + destruct (group_claims L os claims ms) as [[lin1 ms1]| |] eqn:E1; cbn [rbind fst snd] in E; try discriminate. injection E as <- <-.
        destruct (IH ms lin1 ms1 HS HT HC' E1) as (A1 & A2 & A3 & A4 & A5). split; [exact A1|]. split; [exact A2|]. split; [|split].
        * intros x [<-|Hx]; [now left|right; auto].
        * assert (W1 : claims_work L D os (c :: lin1) = (work D os (c_id c) + claims_work L D os lin1)%nat) by reflexivity. rewrite W, W1. lia.
        * intros V C O T. destruct (A5 V C O) as [B1 B2]; [intros; apply T; now right|]. split; [exact B1|]. intros x [<-|Hx]; [apply T; now left|auto].
      + rewrite add_at_point_spec in E. set (pos := position (c_point c) ms) in *. assert (HQ := position_point (c_point c) ms). fold pos in HQ.
        destruct (composite_state L st (c_id c) o (c_point c) m ids circ pos (EvalModel.c_eval c) HS Eo En EV HQ) as [K B].
        cbn [st set_mles vnew st_oracles st_committed st_sums st_mles st_round] in K, B.
        set (ms1 := add_composite_sumcheck pos (c_point c) ms ids circ (EvalModel.c_eval c)) in *.
        destruct (IH ms1 lin ms' K) as (A1 & A2 & A3 & A4 & A5); auto.
        { destruct HT as (T1 & T2 & T3 & T4). split; [exact T1|]. split; [|split; [exact T3|exact T4]].
          intros q b u HI Hu. cbn [set_mles st_mles] in HI. destruct (add_composite_spec L _ _ _ _ _ _ _ _ _ HQ HI Hu) as [(b' & HI' & Hu')|[-> ->]]; [apply (T2 q b' u); auto|]. cbn [u_comp].
          now apply (T3 (c_id c) o m ids circ). }
        split; [exact A1|]. split; [exact A2|]. split; [intros x Hx; right; auto|]. split.
        * rewrite A4, W. unfold ms1. rewrite (add_composite_work L D os pos (c_point c) ms ids circ (EvalModel.c_eval c) HQ).
          rewrite (work_step L D os (c_id c) o (proj1 HS) Eo). unfold step_work. rewrite EV, En. unfold ids_work. lia.
        * intros V C O T. destruct (A5 V C O T) as [B1 B2]. apply (B V C) in B1 as [B1 B3]. split; [exact B1|]. intros x [<-|Hx]; auto.
  Qed.

  (** The claims left are as many errors cheaper as the reduction spends. *)
  Theorem reduce_flush_sound (os : oset L) claims : oset_ok os -> composable_set D os -> (forall c, In c claims -> claim_sized os c) -> exists e,
    sound (fun cs => (forall c, In c cs -> claim_sized os c) /\ (claims_work L D os cs + e <= claims_work L D os claims)%nat) 0 (reduce_flush_claims L os claims) /\
    forall V, consistent os V -> some_false L V claims -> sound (some_false L V) e (reduce_flush_claims L os claims).
  Proof.
    intros HO HD HC. unfold reduce_flush_claims. destruct (group_claims L os claims []) as [[lin ms]| |] eqn:E; cbn [vbind fst snd];
      [|exists 0%nat; split; [constructor|intros; constructor]..].
    destruct (group_spec os claims [] lin ms (new_ok L os HO) (new_tracked L D os HD) HC E) as (A1 & A2 & A3 & A4 & A5).
    destruct (mlecheck_stage_sound L D _ A1 A2) as (e & B1 & B2). cbn [set_mles vnew st_oracles st_mles] in B1, B2.
    exists e. split.
    - eapply (sound_bind F _ _ 0 0); [exact B1|]. intros y ((_ & _ & _ & _ & S) & _ & _ & _ & W). constructor. split.
      + intros c Hc. apply in_app_or in Hc as [Hc|Hc]; [now apply S|auto].
      + rewrite claims_work_app. cbn [set_mles vnew st_oracles] in W. change (mles_work D os []) with 0%nat in A4. lia.
    - intros V C BAD. destruct (claims_dec L V lin) as [(c & Hc & NT)|T].
      + apply (sound_mono F (some_false L V) _ (0 + 0)); [|lia|auto]. eapply (sound_bind F (fun _ => True) _ 0 0); [apply sound_any|]. intros y _. constructor.
        exists c. split; [apply in_or_app; now right|exact NT].
      + assert (NO : ~ obligations V (set_mles ms (vnew os))).
        { intros O. destruct (A5 V C O T) as [_ K]. destruct BAD as (c & Hc & NT). apply NT, K, Hc. }
        apply not_obliged in NO as [(c & [] & _)|[(n & b & u & En & _)|NM]]; [destruct n; discriminate|].
        apply (sound_mono F (some_false L V) _ (e + 0)); [|lia|auto]. eapply (sound_bind F); [apply (B2 V), NM|]. intros y (c & Hc & NT). constructor.
        exists c. split; [apply in_or_app; now left|exact NT].
  Qed.
End Reduce.
