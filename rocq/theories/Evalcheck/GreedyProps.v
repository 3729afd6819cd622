(** C73: greedy evalcheck reduces evaluation claims on any oracles to claims on committed oracles. *)
Require Import Coq.setoid_ring.Ring Coq.Arith.Arith Coq.NArith.NArith Coq.Lists.List Coq.Bool.Bool Lia.
From Verif Require Import Base.Fld Base.Lists Base.Sums Math.MleSpec Math.MleModel Math.ArithModel Math.ArithProofs Math.ArithProps
  Field.Quad Field.TowerProofs Transparent.TransparentModel Transparent.TransparentProps Transparent.ShiftModel Protocol.Proto Protocol.Soundness
  Evalcheck.OracleModel Evalcheck.EvalModel Evalcheck.EvalSpec Evalcheck.OracleProps Evalcheck.EvalMle Evalcheck.EvalProofs
  Evalcheck.EvalExtend Evalcheck.EvalSound Sumcheck.SumcheckModel Sumcheck.SumcheckSpec Sumcheck.SumcheckProps
  Sumcheck.EqIndModel Sumcheck.EqIndProps Evalcheck.GreedyModel Evalcheck.GreedyComp Evalcheck.GreedyWork Evalcheck.GreedySets
  Evalcheck.GreedyStages.
Import ListNotations.

Section Props.
  Variable L D : nat.
  Notation F := (TF L).
  Notation claim := (EvalModel.claim L).
  Notation claim_true := EvalSpec.claim_true.
  Variable u32 : F -> nat.
  Local Open Scope fld_scope.

  (** Some claim of the output is about a committed oracle of [os] and is false. *)
  Definition refuted_claim (V : values L) (os : oset L) (out : list claim * oset L) : Prop :=
    exists c o, In c (fst out) /\ nth_error os (c_id c) = Some (Some o) /\ o_variant o = Committed /\ ~ claim_true V c.

  Definition violated (V : values L) (st : vstate L) : Prop :=
    some_false L V (st_committed st) \/ (exists n b u, nth_error (st_sums st) n = Some b /\ In u b /\ ~ sum_true V n u) \/
    (exists p b u, In (p, b) (st_mles st) /\ In u b /\ ~ mle_true V p u).

  Lemma not_obliged V (st : vstate L) : ~ obligations V st -> violated V st.
  Proof.
    intros H. destruct (claims_dec L V (st_committed st)) as [K|K1]; [now left|].
    assert (S : forall bs k, (exists n b u, nth_error bs n = Some b /\ In u b /\ ~ sum_true V (k + n) u) \/
      forall n b u, nth_error bs n = Some b -> In u b -> sum_true V (k + n) u).
    { clear. induction bs as [|b bs IH]; intros k; [right; intros [|n] ? ? E; discriminate|].
      destruct (IH (S k)) as [(n & b' & u & E & Hu & K)|K].
      - left. exists (S n), b', u. rewrite <- plus_n_Sm. auto.
      - destruct (Forall_Exists_dec (fun u => sum_true V k u)) with (l := b) as [A|A].
        + intros u. unfold sum_true. apply feq_dec.
        + right. rewrite Forall_forall in A. intros [|n] b' u E Hu; [injection E as <-; rewrite Nat.add_0_r; auto|].
          rewrite <- plus_n_Sm. apply (K n b'); auto.
        + left. apply Exists_exists in A as (u & Hu & A). exists 0%nat, b, u. rewrite Nat.add_0_r. auto. }
    destruct (S (st_sums st) 0%nat) as [K|K2]; [right; left; exact K|].
    assert (M : forall ms, (exists p b u, In (p, b) ms /\ In u b /\ ~ mle_true V p u) \/ forall p b u, In (p, b) ms -> In u b -> mle_true V p u).
    { clear. induction ms as [|[p b] ms [(p' & b' & u & E & Hu & K)|K]]; [right; intros ? ? ? []|left; exists p', b', u; split; [now right|auto]|].
      destruct (Forall_Exists_dec (fun u => mle_true V p u)) with (l := b) as [A|A].
      - intros u. unfold mle_true. apply feq_dec.
      - right. rewrite Forall_forall in A. intros p' b' u [E|E] Hu; [injection E as <- <-; auto|eauto].
      - left. apply Exists_exists in A as (u & Hu & A). exists p, b, u. split; [now left|auto]. }
    destruct (M (st_mles st)) as [K|K3]; [right; right; exact K|].
    exfalso. apply H. split; auto.
  Qed.

  Lemma claims_work_app (os : oset L) a b : claims_work L D os (a ++ b) = (claims_work L D os a + claims_work L D os b)%nat.
  Proof. unfold claims_work, ids_work. now rewrite !map_app, list_sum_app. Qed.

  Lemma verify_step claims (st : vstate L) : vstate_ok st -> tracked D st -> (forall c, In c claims -> claim_sized (st_oracles st) c) ->
    sound (fun st' => after L D st (claims_work L D (st_oracles st) claims) st' /\
      forall V, consistent (st_oracles st') V -> obligations V st' -> obligations V st /\ forall c, In c claims -> claim_true V c) 0
      (EvalModel.verify u32 claims st).
  Proof.
    intros HS HT HC. eapply (sound_mono F); [apply sound0_and; [apply evalcheck_work; eauto|apply evalcheck_sound; eauto]|lia|].
    intros st' (A & _ & _ & B). split; auto.
  Qed.

  (** * The loop *)
  Lemma loop_step (st st' : vstate L) claims V :
    after L D st (claims_work L D (st_oracles st) claims) st' ->
    (forall V, consistent (st_oracles st') V -> obligations V st' -> obligations V st /\ forall c, In c claims -> claim_true V c) ->
    vstate_ok st -> (forall c, In c claims -> claim_sized (st_oracles st) c) -> consistent (st_oracles st) V ->
    (some_false L V claims \/ some_false L V (st_committed st)) ->
    exists V', consistent (st_oracles st') V' /\ violated V' st' /\ forall i, (i < length (st_oracles st))%nat -> V' i = V i.
  Proof.
    intros (K & (ext & E & _) & _ & _) HO HS HC C BAD.
    destruct (consistent_extends L ext (st_oracles st) V V) as (V' & C' & A & _); [rewrite <- E; apply K|exact C|]. rewrite <- E in C'.
    exists V'. split; auto. split; auto. apply not_obliged. intros O. destruct (HO V' C' O) as [(O1 & _) O2].
    assert (same : forall c, claim_sized (st_oracles st) c -> claim_true V' c -> claim_true V c).
    { intros c (o & Eo & _) T. unfold EvalSpec.claim_true in *. rewrite <- A; auto. apply nth_error_Some. congruence. }
    destruct BAD as [(c & Hc & NT)|(c & Hc & NT)]; apply NT, same; auto. apply HS; auto.
  Qed.

  Theorem greedy_loop_sound fuel : forall (st : vstate L) V, vstate_ok st -> tracked D st -> consistent (st_oracles st) V -> violated V st ->
    sound (refuted_claim V (st_oracles st)) (state_work D st) (greedy_loop u32 fuel st).
  Proof.
    induction fuel as [|fuel IH]; intros st V HS HT HC BAD; cbn [greedy_loop]; [constructor|].
    destruct (sumcheck_stage_sound L D st HS HT) as (e1 & A1 & A2). set (W := state_work D st).
    assert (INNER : forall a, (stage_ok L D st a /\ st_mles (snd a) = st_mles st /\ (forall n b, nth_error (st_sums (snd a)) n = Some b -> b = []) /\
        (e1 = 0%nat -> fst a = []) /\ (claims_work L D (st_oracles st) (fst a) + e1 <= sums_work D (st_oracles st) 0 (st_sums st))%nat) ->
      some_false L V (fst a) \/ some_false L V (st_committed st) \/ (exists p b u, In (p, b) (st_mles st) /\ In u b /\ ~ mle_true V p u) ->
      sound (refuted_claim V (st_oracles st)) (W - e1)
        (get b <- mlecheck_stage (snd a);
         match fst a ++ fst b with [] => VRet (greedy_finish (snd b)) | claims => get st <- EvalModel.verify u32 claims (snd b); greedy_loop u32 fuel st end)).
    { intros a ((Sa & Ta & Oa & Ca & Za) & Ma & Na & _ & Wa) BADa.
      destruct (mlecheck_stage_sound L D (snd a) Sa Ta) as (e2 & B1 & B2). rewrite Oa, Ma in *.
      assert (CONT : forall b, (stage_ok L D (snd a) b /\ st_sums (snd b) = st_sums (snd a) /\ st_mles (snd b) = [] /\
          (e2 = 0%nat -> fst b = []) /\ (claims_work L D (st_oracles st) (fst b) + e2 <= mles_work D (st_oracles st) (st_mles st))%nat) ->
        some_false L V (fst a ++ fst b) \/ some_false L V (st_committed st) ->
        sound (refuted_claim V (st_oracles st)) (W - e1 - e2)
         (match fst a ++ fst b with [] => VRet (greedy_finish (snd b)) | claims => get st <- EvalModel.verify u32 claims (snd b); greedy_loop u32 fuel st end)).
      { intros b ((Sb & Tb & Ob & Cb & Zb) & Nb & Mb & _ & Wb) BADb. rewrite Oa in *. assert (EC : st_committed (snd b) = st_committed st) by congruence.
        assert (SW : state_work D (snd b) = 0%nat).
        { unfold state_work. rewrite Mb. cbn [mles_work map list_sum fold_right]. rewrite sums_work_empty; auto. rewrite Nb. exact Na. }
        destruct (fst a ++ fst b) as [|c0 cs0] eqn:EA.
        - destruct BADb as [(c & [] & _)|(c & Hc & NT)].
          unfold greedy_finish. destruct (take_new_sumcheck_constraints (snd b)) as [[sets stf]| |] eqn:ET; cbn [rbind fst snd]; try constructor.
          destruct sets; constructor.
          assert (Ef : st_committed stf = st_committed (snd b)).
          { unfold take_new_sumcheck_constraints in ET. destruct (rmap _ _); try discriminate. cbn [rbind] in ET. now injection ET as _ <-. }
          destruct HT as (_ & _ & _ & T4). destruct (T4 c Hc) as (o & Eo & Ev). exists c, o. cbn [fst]. rewrite Ef, EC. auto.
        - rewrite <- EA in *. clear EA c0 cs0. set (claims := fst a ++ fst b) in *.
          assert (SZ : forall c, In c claims -> claim_sized (st_oracles (snd b)) c).
          { intros c Hc. rewrite Ob. apply in_app_iff in Hc as [Hc|Hc]; auto. }
          eapply (sound_mono F _ _ (0 + (W - e1 - e2))%nat); [|lia|intros x Hx; exact Hx].
          eapply (sound_bind F); [apply verify_step; auto|]. intros st3 [AF OB].
          destruct (loop_step (snd b) st3 claims V AF OB Sb SZ) as (V' & C3 & V3 & AG); [now rewrite Ob|rewrite EC; exact BADb|].
          destruct AF as (K3 & (ext & E3 & DE) & T3 & W3). rewrite SW, Ob in W3.
          eapply (sound_mono F); [apply (IH st3 V'); auto| |].
          + unfold claims in W3. rewrite claims_work_app in W3.
            assert (EW : W = (sums_work D (st_oracles st) 0 (st_sums st) + mles_work D (st_oracles st) (st_mles st))%nat) by reflexivity. lia.
          + intros out (c & o & Hc & Eo & Ev & NT). rewrite E3, Ob in Eo.
            destruct (Nat.lt_ge_cases (c_id c) (length (st_oracles st))) as [Hl|Hl].
            * exists c, o. rewrite nth_error_app1 in Eo by auto. repeat split; auto. unfold EvalSpec.claim_true in *. rewrite AG in NT by (rewrite Ob; auto). exact NT.
            * rewrite nth_error_app2 in Eo by auto. apply nth_error_In in Eo. exfalso. apply (DE o Eo Ev). }
      assert (LE : (e2 <= W - e1 \/ W - e1 < e2)%nat) by lia. destruct LE as [LE|LE].
      2:{ (* the stage cannot succeed *)
          eapply (sound_mono F _ _ (0 + 0)%nat); [eapply (sound_bind F); [exact B1|]|lia|intros x Hx; exact Hx].
          intros b (_ & _ & _ & _ & K). exfalso. unfold W, state_work in LE. lia. }
      destruct BADa as [BADa|[BADa|BADa]].
      - eapply (sound_mono F _ _ (0 + (W - e1 - e2))%nat); [eapply (sound_bind F); [exact B1|]|lia|intros x Hx; exact Hx].
        intros b Hb. apply CONT; auto. left. destruct BADa as (c & Hc & NT). exists c. split; auto. apply in_app_iff. auto.
      - eapply (sound_mono F _ _ (0 + (W - e1 - e2))%nat); [eapply (sound_bind F); [exact B1|]|lia|intros x Hx; exact Hx].
        intros b Hb. apply CONT; auto.
      - eapply (sound_mono F _ _ (e2 + (W - e1 - e2))%nat); [eapply (sound_bind F); [apply (sound0_and F _ _ _ _ B1 (B2 V BADa))|]|lia|intros x Hx; exact Hx].
        intros b [Hb (c & Hc & NT)]. apply CONT; auto. left. exists c. split; auto. apply in_app_iff. auto. }
    assert (LE : (e1 <= W \/ W < e1)%nat) by lia. destruct LE as [LE|LE].
    2:{ (* the stage cannot succeed *)
        eapply (sound_mono F _ _ (0 + 0)%nat); [eapply (sound_bind F); [exact A1|]|lia|intros x Hx; exact Hx].
        intros a (_ & _ & _ & _ & K). exfalso. unfold W, state_work in LE. lia. }
    destruct BAD as [BAD|[BAD|BAD]].
    - eapply (sound_mono F _ _ (0 + (W - e1))%nat); [eapply (sound_bind F); [exact A1|]|lia|intros x Hx; exact Hx].
      intros a Ha. apply INNER; auto.
    - eapply (sound_mono F _ _ (e1 + (W - e1))%nat); [eapply (sound_bind F); [apply (sound0_and F _ _ _ _ A1 (A2 V BAD))|]|lia|intros x Hx; exact Hx].
      intros a [Ha K]. apply INNER; auto.
    - eapply (sound_mono F _ _ (0 + (W - e1))%nat); [eapply (sound_bind F); [exact A1|]|lia|intros x Hx; exact Hx].
      intros a Ha. apply INNER; auto.
  Qed.

  Lemma new_ok (os : oset L) : oset_ok os -> vstate_ok (vnew os).
  Proof.
    intros H. split; [exact H|]. split; [intros [|n] b u E; discriminate|]. split; [intros ? ? ? []|intros ? []].
  Qed.
  Lemma new_tracked (os : oset L) : composable_set D os -> tracked D (vnew os).
  Proof.
    intros H. split; [intros [|n] b u E; discriminate|]. split; [intros ? ? ? []|]. split; [exact H|intros ? []].
  Qed.
  Lemma new_work (os : oset L) : state_work D (vnew os) = 0%nat.
  Proof. reflexivity. Qed.

  (** The tree of messages and challenges: a challenge is bad for at most as many values as the work of the claims in total, and
      with no bad challenge one of the returned claims is about a committed oracle of the caller and is false. *)
  Theorem greedy_sound fuel (os : oset L) (claims : list claim) (V : values L) :
    oset_ok os -> composable_set D os -> (forall c, In c claims -> claim_sized os c) -> consistent os V ->
    (exists c, In c claims /\ ~ claim_true V c) ->
    sound (refuted_claim V os) (claims_work L D os claims) (greedy_verify u32 fuel os claims).
  Proof.
    intros HO HD HC C BAD. unfold greedy_verify.
    eapply (sound_mono F _ _ (0 + claims_work L D os claims)%nat); [eapply (sound_bind F)|lia|intros x Hx; exact Hx].
    - apply (verify_step claims (vnew os)); [now apply new_ok|now apply new_tracked|exact HC].
    - intros st [AF OB]. destruct (loop_step (vnew os) st claims V AF OB (new_ok os HO) HC C) as (V' & C3 & V3 & AG); [left; exact BAD|].
      destruct AF as (K3 & (ext & E3 & DE) & T3 & W3). rewrite new_work in W3. cbn [vnew st_oracles] in *.
      eapply (sound_mono F); [apply (greedy_loop_sound fuel st V'); auto|exact W3|].
      intros out (c & o & Hc & Eo & Ev & NT). rewrite E3 in Eo.
      destruct (Nat.lt_ge_cases (c_id c) (length os)) as [Hl|Hl].
      + exists c, o. rewrite nth_error_app1 in Eo by auto. repeat split; auto. unfold EvalSpec.claim_true in *. rewrite AG in NT by auto. exact NT.
      + rewrite nth_error_app2 in Eo by auto. apply nth_error_In in Eo. exfalso. apply (DE o Eo Ev).
  Qed.

  (** C73: if a claim is false then, against any strategy of the prover, of the vectors of [k] challenges from any set [S] at most a
      fraction [claims_work / |S|] make the verifier accept with returned claims that are all true. *)
  Theorem greedy_soundness fuel (os : oset L) (claims : list claim) (V : values L) :
    oset_ok os -> composable_set D os -> (forall c, In c claims -> claim_sized os c) -> consistent os V ->
    (exists c, In c claims /\ ~ claim_true V c) ->
    forall (strategy : list F -> nat -> list F) (S : list F) (k : nat) (T : list (list F)),
      NoDup S -> NoDup T ->
      (forall cs, In cs T -> length cs = k /\ incl cs S /\
         exists out, vplay (greedy_verify u32 fuel os claims) strategy [] 0 cs = Ok out /\ forall c, In c (fst out) -> claim_true V c) ->
      (length T * length S <= claims_work L D os claims * length S ^ k)%nat.
  Proof.
    intros HO HD HC C BAD. apply of_sound. eapply (sound_mono F); [apply (greedy_sound fuel os claims V HO HD HC C BAD)|lia|].
    intros out (c & o & Hc & _ & _ & NT) H. auto.
  Qed.

  (** * What is returned *)
  Lemma loop_returns fuel : forall st : vstate L, vstate_ok st -> tracked D st ->
    sound (fun out => (exists ext, snd out = st_oracles st ++ ext /\ derived ext) /\ oset_ok (snd out) /\
      forall c, In c (fst out) -> exists o, nth_error (st_oracles st) (c_id c) = Some (Some o) /\ o_variant o = Committed /\ length (c_point c) = o_nvars o) 0
      (greedy_loop u32 fuel st).
  Proof.
    induction fuel as [|fuel IH]; intros st HS HT; cbn [greedy_loop]; [constructor|].
    destruct (sumcheck_stage_sound L D st HS HT) as (e1 & A1 & _). eapply (sound_bind F _ _ 0 0); [exact A1|].
    intros a ((Sa & Ta & Oa & Ca & Za) & Ma & Na & _ & _). destruct (mlecheck_stage_sound L D (snd a) Sa Ta) as (e2 & B1 & _).
    eapply (sound_bind F _ _ 0 0); [exact B1|]. intros b ((Sb & Tb & Ob & Cb & Zb) & Nb & Mb & _ & _).
    destruct (fst a ++ fst b) as [|c0 cs0] eqn:EA.
    - unfold greedy_finish. destruct (take_new_sumcheck_constraints (snd b)) as [[sets stf]| |] eqn:ET; cbn [rbind fst snd]; try constructor.
      destruct sets; constructor.
      assert (Ef : st_committed stf = st_committed (snd b) /\ st_oracles stf = st_oracles (snd b)).
      { unfold take_new_sumcheck_constraints in ET. destruct (rmap _ _); try discriminate. cbn [rbind] in ET. now injection ET as _ <-. }
      destruct Ef as [Ef1 Ef2]. cbn [fst snd]. rewrite Ef1, Ef2, Ob, Oa, Cb, Ca. split; [exists []; rewrite app_nil_r; split; auto; intros ? []|].
      split; [apply HS|]. intros c Hc. destruct (proj2 (proj2 (proj2 HT)) c Hc) as (o & Eo & Ev). exists o. split; auto. split; auto.
      destruct (proj2 (proj2 (proj2 HS)) c Hc) as (o' & Eo' & En). congruence.
    - rewrite <- EA. clear EA c0 cs0. eapply (sound_bind F _ _ 0 0); [apply verify_step; auto|].
      + intros c Hc. rewrite Ob, Oa. apply in_app_iff in Hc as [Hc|Hc]; [auto|rewrite <- Oa; auto].
      + intros st3 [(K3 & (ext & E3 & DE) & T3 & _) _]. rewrite Ob, Oa in E3. eapply (sound_mono F); [apply (IH st3 K3 T3)|lia|].
        intros out ((ext' & E' & DE') & OK & CM). split; [|split; auto].
        * exists (ext ++ ext'). rewrite E', E3, app_assoc. split; auto. intros o HI. apply in_app_iff in HI as [HI|HI]; auto.
        * intros c Hc. destruct (CM c Hc) as (o & Eo & Ev & En). exists o. split; auto. rewrite E3 in Eo.
          destruct (Nat.lt_ge_cases (c_id c) (length (st_oracles st))) as [Hl|Hl]; [now rewrite nth_error_app1 in Eo by auto|].
          rewrite nth_error_app2 in Eo by auto. apply nth_error_In in Eo. exfalso. apply (DE o Eo Ev).
  Qed.

  Lemma greedy_returns_sound fuel (os : oset L) (claims : list claim) :
    oset_ok os -> composable_set D os -> (forall c, In c claims -> claim_sized os c) ->
    sound (fun out => (exists ext, snd out = os ++ ext /\ derived ext) /\ oset_ok (snd out) /\
      forall c, In c (fst out) -> exists o, nth_error os (c_id c) = Some (Some o) /\ o_variant o = Committed /\ length (c_point c) = o_nvars o) 0
      (greedy_verify u32 fuel os claims).
  Proof.
    intros HO HD HC. unfold greedy_verify.
    eapply (sound_bind F _ _ 0 0); [apply (verify_step claims (vnew os)); [now apply new_ok|now apply new_tracked|exact HC]|].
    intros st3 [(K3 & (ext & E3 & DE) & T3 & _) _]. cbn [vnew st_oracles] in E3. eapply (sound_mono F); [apply (loop_returns fuel st3 K3 T3)|lia|].
    intros out ((ext' & E' & DE') & OK & CM). split; [|split; auto].
    - exists (ext ++ ext'). rewrite E', E3, app_assoc. split; auto. intros o HI. apply in_app_iff in HI as [HI|HI]; auto.
    - intros c Hc. destruct (CM c Hc) as (o & Eo & Ev & En). exists o. split; auto. rewrite E3 in Eo.
      destruct (Nat.lt_ge_cases (c_id c) (length os)) as [Hl|Hl]; [now rewrite nth_error_app1 in Eo by auto|].
      rewrite nth_error_app2 in Eo by auto. apply nth_error_In in Eo. exfalso. apply (DE o Eo Ev).
  Qed.

  (** C73: every returned claim is about a committed oracle of the caller, at a point of its dimension; the oracle set still is
      well formed and has only got derived oracles. *)
  Theorem greedy_returns fuel (os : oset L) (claims : list claim) tape cs out t r :
    oset_ok os -> composable_set D os -> (forall c, In c claims -> claim_sized os c) ->
    vrun (greedy_verify u32 fuel os claims) tape cs = Ok (out, t, r) ->
    (exists ext, snd out = os ++ ext /\ derived ext) /\ oset_ok (snd out) /\
    forall c, In c (fst out) -> exists o, nth_error os (c_id c) = Some (Some o) /\ o_variant o = Committed /\ length (c_point c) = o_nvars o.
  Proof. intros HO HD HC. exact (sound0_run L _ _ (greedy_returns_sound fuel os claims HO HD HC) tape cs out t r). Qed.

  (** * The loop ends *)
  Lemma loop_fuel f : forall f' (st : vstate L), vstate_ok st -> tracked D st -> (state_work D st < f)%nat -> (state_work D st < f')%nat ->
    forall tape cs, vrun (greedy_loop u32 f st) tape cs = vrun (greedy_loop u32 f' st) tape cs.
  Proof.
    induction f as [|f IH]; intros f' st HS HT H H' tape cs; [lia|]. destruct f' as [|f']; [lia|]. cbn [greedy_loop].
    destruct (sumcheck_stage_sound L D st HS HT) as (e1 & A1 & _). rewrite !vrun_vbind.
    destruct (vrun (sumcheck_stage st) tape cs) as [[[a t1] r1]| |] eqn:EA; cbn [rbind fst snd]; auto.
    apply (sound0_run L _ _ A1) in EA. destruct EA as ((Sa & Ta & Oa & Ca & Za) & Ma & Na & Ya & Wa).
    destruct (mlecheck_stage_sound L D (snd a) Sa Ta) as (e2 & B1 & _). rewrite !vrun_vbind.
    destruct (vrun (mlecheck_stage (snd a)) t1 r1) as [[[b t2] r2]| |] eqn:EB; cbn [rbind fst snd]; auto.
    apply (sound0_run L _ _ B1) in EB. destruct EB as ((Sb & Tb & Ob & Cb & Zb) & Nb & Mb & Yb & Wb). rewrite Oa, Ma in Wb.
    destruct (fst a ++ fst b) as [|c0 cs0] eqn:EC; auto.
    assert (NZ : (1 <= e1 + e2)%nat).
    { destruct e1; [|lia]. destruct e2; [|lia]. rewrite Ya, Yb in EC by auto. discriminate. }
    rewrite <- EC. clear EC c0 cs0. rewrite !vrun_vbind.
    assert (SZ : forall c, In c (fst a ++ fst b) -> claim_sized (st_oracles (snd b)) c).
    { intros c Hc. rewrite Ob, Oa. apply in_app_iff in Hc as [Hc|Hc]; [auto|rewrite <- Oa; auto]. }
    destruct (vrun (EvalModel.verify u32 (fst a ++ fst b) (snd b)) t2 r2) as [[[st3 t3] r3]| |] eqn:EV; cbn [rbind fst snd]; auto.
    apply (sound0_run L _ _ (verify_step _ _ Sb Tb SZ)) in EV. destruct EV as [(K3 & _ & T3 & W3) _].
    assert (SW : state_work D (snd b) = 0%nat).
    { unfold state_work. rewrite Mb. cbn [mles_work map list_sum fold_right]. rewrite sums_work_empty; auto. rewrite Nb. exact Na. }
    rewrite SW, Ob, Oa, claims_work_app in W3.
    assert (EW : state_work D st = (sums_work D (st_oracles st) 0 (st_sums st) + mles_work D (st_oracles st) (st_mles st))%nat) by reflexivity.
    apply IH; auto; lia.
  Qed.

  (** C73: the verifier ends: after at most [claims_work] rounds there is nothing left to check, so a larger bound on the number of
      rounds changes nothing. *)
  Theorem greedy_fuel fuel fuel' (os : oset L) (claims : list claim) :
    oset_ok os -> composable_set D os -> (forall c, In c claims -> claim_sized os c) ->
    (claims_work L D os claims < fuel)%nat -> (claims_work L D os claims < fuel')%nat ->
    forall tape cs, vrun (greedy_verify u32 fuel os claims) tape cs = vrun (greedy_verify u32 fuel' os claims) tape cs.
  Proof.
    intros HO HD HC H H' tape cs. unfold greedy_verify. rewrite !vrun_vbind.
    destruct (vrun (EvalModel.verify u32 claims (vnew os)) tape cs) as [[[st t] r]| |] eqn:EV; cbn [rbind fst snd]; auto.
    apply (sound0_run L _ _ (verify_step claims (vnew os) (new_ok os HO) (new_tracked os HD) HC)) in EV. destruct EV as [(K & _ & T & W) _].
    rewrite new_work in W. cbn [vnew st_oracles] in W. apply loop_fuel; auto; lia.
  Qed.
End Props.
