(** C73: the two sumcheck stages of a round of greedy evalcheck. *)
Require Import Coq.setoid_ring.Ring Coq.Arith.Arith Coq.Lists.List Coq.Bool.Bool Lia.
From Verif Require Import Base.Fld Base.Lists Base.Sums Math.MleSpec Math.MleModel Math.ArithModel Math.ArithProofs Math.ArithProps
  Field.Quad Field.TowerProofs Transparent.TransparentModel Transparent.TransparentProps Protocol.Proto Protocol.Soundness
  Evalcheck.OracleModel Evalcheck.EvalModel Evalcheck.EvalSpec Evalcheck.OracleProps Evalcheck.EvalMle Evalcheck.EvalProofs
  Evalcheck.EvalExtend Evalcheck.EvalSound Sumcheck.SumcheckModel Sumcheck.SumcheckSpec Sumcheck.SumcheckProps
  Sumcheck.EqIndModel Sumcheck.EqIndProps Evalcheck.GreedyModel Evalcheck.GreedyComp Evalcheck.GreedyWork Evalcheck.GreedySets.
Import ListNotations.

Section Stages.
  Variable L D : nat.
  Notation F := (TF L).
  Notation claim := (EvalModel.claim L).
  Local Open Scope fld_scope.
  Add Ring FLring : (f_ring (TF L)).

  Lemma sound_any {A} (p : vproto F A) : sound (fun _ => True) 0 p.
  Proof.
    induction p as [[a| |]|n k IH|k IH]; try (constructor; auto; fail).
    apply (sound_sample F _ 0 0 (fun _ => false)); auto. intros [|x l] _ H; cbn; auto. specialize (H x (or_introl eq_refl)). discriminate.
  Qed.

  Definition some_false (V : values L) (cs : list claim) : Prop := exists c, In c cs /\ ~ EvalSpec.claim_true V c.
  Lemma claims_dec V (cs : list claim) : some_false V cs \/ forall c, In c cs -> EvalSpec.claim_true V c.
  Proof.
    induction cs as [|c cs [(c' & Hc & H)|H]]; [right; intros ? []|left; exists c'; split; auto; now right|].
    destruct (feq_dec F (mle (V (c_id c)) (c_point c)) (EvalModel.c_eval c)) as [E|E].
    - right. intros c' [<-|Hc]; auto.
    - left. exists c. split; [now left|exact E].
  Qed.

  (** * Claims about deferred sums *)
  Definition two (c : circuit F) : Prop := forall n k, circuit_comp n c = Ok k -> c_deg k = 2%nat /\ faithful L n c k.
  Lemma two_compiled c : two c -> compiled L 2 c.
  Proof. intros H n k E. destruct (H n k E). split; auto. lia. Qed.
  Lemma remap_bivariate pos c : remap_vars (bivariate_product : circuit F) pos = Ok c -> two c.
  Proof.
    unfold remap_vars, bivariate_product. cbn [omap remap_step]. intros E.
    destruct (nth_error pos 0) as [a|]; [|discriminate]. cbn [option_map obind] in E. destruct (nth_error pos 1) as [b|]; [|discriminate].
    cbn [option_map obind] in E. injection E as <-. intros n k E. destruct (bivariate_comp L a b n k E). auto.
  Qed.

  Definition sets_cost (sets : list (cset L)) : nat :=
    (list_sum (map (fun s => length (cs_constraints s)) sets) + 2 * fold_right Nat.max 0 (map cs_nvars sets))%nat.
  Definition sets_ids (sets : list (cset L)) : list nat := concat (map cs_ids sets).

  Lemma ids_work_concat (os : oset L) ll : ids_work D os (concat ll) = list_sum (map (ids_work D os) ll).
  Proof.
    unfold ids_work. induction ll as [|l ll IH]; auto. cbn [concat map]. now rewrite map_app, list_sum_app, list_sum_cons, IH.
  Qed.

  Lemma builder_cost (os : oset L) k b : builder_work D os k b = (length b * (1 + k) + list_sum (map (fun u => ids_work D os (u_ids u)) b))%nat.
  Proof.
    unfold builder_work. induction b as [|u b IH]; auto. cbn [map]. rewrite !list_sum_cons, IH. cbn [length]. lia.
  Qed.

  Lemma sums_inv (os : oset L) : forall bs n builts, rmap (build_one os) bs = Ok builts ->
    (forall k b u, nth_error bs k = Some b -> In u b -> ungrouped_ok os (n + k) u /\ forall pos c, remap_vars (u_comp u) pos = Ok c -> two c) ->
    let sets := concat (map (fun b => match b with Built s => [s] | Empty => [] end) builts) in
    (forall s, In s sets -> set_good L two os s) /\ (sets_cost sets + ids_work D os (sets_ids sets) <= sums_work D os n bs)%nat.
  Proof.
    intros bs n builts E. apply rmap_inv in E. revert n. induction E as [|b x bs xs E EE IH]; intros n HB; cbn [map concat sums_work].
    - cbv zeta. split; [intros ? []|]. cbn. lia.
    - destruct (IH (S n)) as [H1 H2].
      { intros k b' u Eb Hu. replace (S n + k)%nat with (n + S k)%nat by lia. apply (HB (S k) b'); auto. }
      destruct x as [s|]; cbn [app]; cbv zeta.
      2:{ split; auto. etransitivity; [exact H2|]. lia. }
      destruct (built_inv L D two os b n s) as (G & N & F2 & W); [|exact E|].
      { intros u Hu. specialize (HB 0%nat b u eq_refl Hu). now rewrite Nat.add_0_r in HB. }
      split; [intros s' [<-|Hs]; auto|].
      unfold sets_cost, sets_ids in *. cbn [map concat fold_right]. rewrite list_sum_cons. unfold ids_work in *. rewrite map_app, list_sum_app.
      fold (ids_work D os (cs_ids s)) in *. rewrite builder_cost. unfold ids_work in *.
      rewrite <- (Forall2_len _ _ _ F2), N. set (A := list_sum (map (work D os) (cs_ids s))) in *.
      set (M := fold_right Nat.max 0%nat _) in *. assert (LB : (1 <= length b)%nat).
      { destruct b; cbn; [|lia]. discriminate. }
      nia.
  Qed.

  Definition set_claims (V : values L) (sets : list (cset L)) (cms : list (SumcheckModel.claim F * claim_meta)) : list (inst F) :=
    map (fun x => set_inst L V (fst x) (fst (snd x))) (combine sets cms).

  Section Insts.
    Variable os : oset L.
    Variable P : circuit F -> Prop.
    Variable d : nat.
    Hypothesis HP : forall c, P c -> compiled L d c.
    Variable sets : list (cset L).
    Variable cms : list (SumcheckModel.claim F * claim_meta).
    Hypothesis HG : forall s, In s sets -> set_good L P os s.
    Hypothesis HC : Forall2 (fun s cm => constraint_set_claim s = Ok cm) sets cms.

    Lemma set_claims_fst V : map fst (set_claims V sets cms) = map fst cms.
    Proof. unfold set_claims. rewrite map_map. clear HG. induction HC as [|s cm ss cc E FF IH]; auto. cbn. f_equal. now apply IH. Qed.
    Lemma set_claims_metas : map snd cms = map (fun s => (cs_nvars s, cs_ids s)) sets.
    Proof.
      clear HG. induction HC as [|s [c m] ss cc E FF IH]; auto. cbn [map snd]. rewrite IH by auto.
      now destruct (set_claim_inv L s c m E) as (-> & _).
    Qed.
    Lemma set_claims_in V i : In i (set_claims V sets cms) -> exists s c m, In s sets /\ constraint_set_claim s = Ok (c, m) /\ i = set_inst L V s c.
    Proof.
      unfold set_claims. clear HG. induction HC as [|s [c m] ss cc E FF IH]; intros Hi; [destruct Hi|].
      destruct Hi as [<-|Hi]; [exists s, c, m; cbn; auto|]. destruct (IH FF Hi) as (s' & c' & m' & H1 & H2 & H3). exists s', c', m'. split; [now right|auto].
    Qed.
    Lemma set_claims_has V s : In s sets -> exists c m, constraint_set_claim s = Ok (c, m) /\ In (set_inst L V s c) (set_claims V sets cms).
    Proof.
      unfold set_claims. clear HG. induction HC as [|s0 [c m] ss cc E FF IH]; intros Hi; [destruct Hi|].
      destruct Hi as [<-|Hi]; [exists c, m; split; auto; now left|]. destruct (IH FF Hi) as (c' & m' & H1 & H2). exists c', m'. split; auto. now right.
    Qed.
    Lemma set_claims_ok V : Forall inst_ok (set_claims V sets cms).
    Proof.
      apply Forall_forall. intros i Hi. destruct (set_claims_in V i Hi) as (s & c & m & Hs & E & ->).
      apply (set_inst_ok L os s c m P d); auto.
    Qed.
    Lemma set_claims_composites V : n_composites (set_claims V sets cms) = list_sum (map (fun s => length (cs_constraints s)) sets).
    Proof.
      unfold n_composites, set_claims. clear HG. induction HC as [|s [c m] ss cc E FF IH]; auto. cbn [combine map]. rewrite !list_sum_cons.
      rewrite IH by auto. cbn [set_inst fst snd]. now rewrite (sums_length L s c m).
    Qed.
    Lemma set_claims_vars V : max_vars (set_claims V sets cms) = fold_right Nat.max 0%nat (map cs_nvars sets).
    Proof.
      unfold max_vars, set_claims. clear HG. induction HC as [|s [c m] ss cc E FF IH]; auto. cbn [combine map fold_right].
      rewrite IH by auto. cbn [set_inst fst snd]. now destruct (set_claim_inv L s c m E) as (_ & -> & _).
    Qed.
    Lemma set_claims_degree V : (max_degree (set_claims V sets cms) <= d)%nat.
    Proof.
      assert (H : forall i, In i (set_claims V sets cms) -> (max_individual_degree (fst i) <= d)%nat).
      { intros i Hi. destruct (set_claims_in V i Hi) as (s & c & m & Hs & E & ->). apply (sums_degree L os s c m P d); auto. }
      unfold max_degree. induction (set_claims V sets cms) as [|i l IH]; cbn [map fold_right]; [lia|].
      assert (K := H i (or_introl eq_refl)). specialize (IH (fun j Hj => H j (or_intror Hj))). lia.
    Qed.

    (** True evaluation claims come from truthful outputs. *)
    Lemma metas_truthful V out : snd out = map (fun m => map (fun id => mle (V id) (lastn (fst m) (fst out))) (snd m)) (map snd cms) ->
      truthful_last (set_claims V sets cms) out.
    Proof.
      rewrite set_claims_metas. unfold truthful_last. intros ->. unfold set_claims. rewrite !map_map. clear HG.
      induction HC as [|s [c m] ss cc E FF IH]; auto. cbn [combine map]. f_equal; [|now apply IH]. cbn [fst snd set_inst].
      unfold mvals, set_inst. cbn [snd]. rewrite map_map. destruct (set_claim_inv L s c m E) as (_ & -> & _). reflexivity.
    Qed.

    Lemma made_claims out cs : make_eval_claims HighToLow (map snd cms) out = Ok cs ->
      map c_id cs = sets_ids sets /\ (forall c, In c cs -> claim_sized os c) /\
      forall V, ~ truthful_last (set_claims V sets cms) out -> some_false V cs.
    Proof.
      intros E. apply make_claims_inv in E as (E1 & E2 & E3). split; [|split].
      - rewrite E1, set_claims_metas, map_map. reflexivity.
      - intros c Hc. destruct (E2 c Hc) as (m & Hm & Hi & HL). rewrite set_claims_metas in Hm. apply in_map_iff in Hm as (s & <- & Hs).
        cbn [fst snd] in *. destruct (HG s Hs) as (_ & _ & K). destruct (K _ Hi) as (o & Eo & En). exists o. split; auto. congruence.
      - intros V NT. destruct (claims_dec V cs) as [H|H]; auto. exfalso. apply NT. apply metas_truthful. now apply E3.
    Qed.
  End Insts.

  (** The state after a stage: what it took is gone, the rest is unchanged. *)
  Definition stage_ok (st : vstate L) (x : list claim * vstate L) : Prop :=
    vstate_ok (snd x) /\ tracked D (snd x) /\ st_oracles (snd x) = st_oracles st /\ st_committed (snd x) = st_committed st /\
    forall c, In c (fst x) -> claim_sized (st_oracles st) c.

  Lemma sums_work_empty (os : oset L) bs : (forall n b, nth_error bs n = Some b -> b = []) -> forall n, sums_work D os n bs = 0%nat.
  Proof.
    induction bs as [|b bs IH]; intros H n; auto. cbn [sums_work]. rewrite (H 0%nat b eq_refl), IH; auto. intros k b' E. apply (H (S k) b' E).
  Qed.

  Lemma rev_prefix (n : nat) (chal : list F) : lastn n (rev chal) = rev (firstn n chal).
  Proof.
    unfold lastn. rewrite rev_length, skipn_rev. f_equal. destruct (Nat.le_gt_cases n (length chal)).
    - f_equal. lia.
    - rewrite !firstn_all2; auto; lia.
  Qed.

  Lemma sumcheck_stage_sound (st : vstate L) : vstate_ok st -> tracked D st -> exists e,
    sound (fun x => stage_ok st x /\ st_mles (snd x) = st_mles st /\ (forall n b, nth_error (st_sums (snd x)) n = Some b -> b = []) /\
      (e = 0%nat -> fst x = []) /\ (claims_work L D (st_oracles st) (fst x) + e <= sums_work D (st_oracles st) 0 (st_sums st))%nat) 0 (sumcheck_stage st) /\
    forall V, (exists n b u, nth_error (st_sums st) n = Some b /\ In u b /\ ~ sum_true V n u) ->
      sound (fun x => some_false V (fst x)) e (sumcheck_stage st).
  Proof.
    intros HS HT. destruct (take_sumchecks_correct L st HS) as (sets & st' & ET & EO & EC & EM & ES & _ & EV).
    assert (HG : (forall s, In s sets -> set_good L two (st_oracles st) s) /\
                 (sets_cost sets + ids_work D (st_oracles st) (sets_ids sets) <= sums_work D (st_oracles st) 0 (st_sums st))%nat).
    { unfold take_new_sumcheck_constraints in ET. destruct (rmap _ _) as [bl| |] eqn:ER; try discriminate. cbn [rbind] in ET. injection ET as <- _.
      apply (sums_inv (st_oracles st) (st_sums st) 0 bl ER). intros k b u Eb Hu. split; [now apply (proj1 (proj2 HS) k b u)|].
      destruct (proj1 HT k b u Eb Hu) as (i & j & _ & ->). apply remap_bivariate. }
    destruct HG as [HG HW]. exists (sets_cost sets).
    assert (BASE : forall cs, map c_id cs = sets_ids sets -> (forall c, In c cs -> claim_sized (st_oracles st) c) ->
      stage_ok st (cs, st') /\ st_mles st' = st_mles st /\ (forall n b, nth_error (st_sums st') n = Some b -> b = []) /\
      (sets_cost sets = 0%nat -> cs = []) /\ (claims_work L D (st_oracles st) cs + sets_cost sets <= sums_work D (st_oracles st) 0 (st_sums st))%nat).
    { intros cs EI SZ. split; [|split; [exact EM|split; [exact ES|split]]].
      - split; [|split; [|split; [exact EO|split; [exact EC|exact SZ]]]].
        + destruct HS as (S1 & S2 & S3 & S4). split; [cbn [snd]; now rewrite EO|]. cbn [snd]. split; [|rewrite EO, EM, EC; auto].
          intros n b u E Hu. rewrite (ES n b E) in Hu. destruct Hu.
        + destruct HT as (T1 & T2 & T3 & T4). cbn [snd]. unfold tracked. rewrite EO, EM, EC. split; auto.
          intros n b u E Hu. rewrite (ES n b E) in Hu. destruct Hu.
      - intros Z. destruct sets as [|s sets']; [destruct cs; auto; discriminate|]. exfalso.
        destruct (HG s (or_introl eq_refl)) as (NE & _). unfold sets_cost in Z. cbn [map] in Z. rewrite list_sum_cons in Z.
        destruct (cs_constraints s); [congruence|]. cbn [length] in Z. lia.
      - unfold claims_work. rewrite EI. lia. }
    unfold sumcheck_stage. rewrite ET. cbn [vbind fst snd].
    destruct (rmap constraint_set_claim sets) as [cms| |] eqn:ER; cbn [vbind]; [|split; [constructor|intros; constructor]..].
    apply rmap_inv in ER. destruct cms as [|cm0 cms0] eqn:Ecms.
    - inversion ER; subst sets. split.
      + constructor. cbn [fst snd]. apply BASE; auto. intros ? [].
      + intros V (n & b & u & E & Hu & NE). exfalso. apply NE. apply (proj1 (EV V)) with b; auto. intros ? [].
    - cbv beta iota. rewrite <- Ecms in *. clear Ecms. split.
      + apply (sound_bind F (fun _ => True) _ 0 0); [apply sound_any|]. intros v _.
        apply (sound_bind F (fun _ => True) _ 0 0); [apply sound_any|]. intros out _. apply sound_bind0. intros cs E.
        constructor. cbn [fst snd]. destruct (made_claims (st_oracles st) two sets cms HG ER _ _ E) as (E1 & E2 & _). apply BASE; auto.
      + intros V (n & b & u & Eb & Hu & NE).
        assert (BAD : exists i, In i (set_claims V sets cms) /\ ~ SumcheckSpec.claim_true i).
        { destruct (Forall_Exists_dec (fun s => set_sum_true L V s)) with (l := sets) as [FA|EX].
          - intros s. unfold set_sum_true. clear. induction (cs_constraints s) as [|c l [H|H]].
            + left. intros ? [].
            + destruct (feq_dec F (sumn (2 ^ cs_nvars s) (comp_at V (cs_ids s) (fst c))) (snd c)) as [E|E].
              * left. intros c' [<-|Hc]; auto.
              * right. intros K. apply E, K. now left.
            + right. intros K. apply H. intros; apply K. now right.
          - exfalso. apply NE. apply (proj1 (EV V)) with b; auto. now apply Forall_forall.
          - apply Exists_exists in EX as (s & Hs & NT). destruct (set_claims_has sets cms ER V s Hs) as (c & m & E & HI).
            exists (set_inst L V s c). split; auto. intros T. apply NT.
            apply (set_inst_true L (st_oracles st) s c m two 2 two_compiled); auto. }
        apply sound_unassoc.
        replace (sets_cost sets) with (sets_cost sets + 0)%nat by lia.
        eapply (sound_bind F (fun out => ~ truthful_front HighToLow (set_claims V sets cms) out)).
        * rewrite <- (set_claims_fst sets cms ER V). eapply (sound_mono F); [apply front_loaded_sound; auto| |intros a Ha; exact Ha].
          -- apply (set_claims_ok (st_oracles st) two 2 two_compiled sets cms HG ER).
          -- (* every claim has degree two *)
             unfold some_degree. destruct (Nat.eq_dec (max_vars (set_claims V sets cms)) 0) as [Z|NZ]; [now left|right].
             assert (MX : forall l : list (inst F), max_vars l <> 0%nat -> exists i, In i l /\ cl_n (fst i) = max_vars l).
             { clear. induction l as [|i l IH]; intros H; [exfalso; now apply H|]. unfold max_vars in *. cbn [map fold_right] in *.
               destruct (Nat.max_spec (cl_n (fst i)) (fold_right Nat.max 0%nat (map (fun i => cl_n (fst i)) l))) as [[H1 H2]|[H1 H2]].
               - destruct IH as (j & Hj & Ej); [lia|]. exists j. split; [now right|]. rewrite H2. exact Ej.
               - exists i. split; [now left|]. now rewrite H2. }
             destruct (MX _ NZ) as (i & Hi & Ei). exists i. split; auto. split; auto.
             destruct (set_claims_in sets cms ER V i Hi) as (s & c & m & Hs & E & ->). cbn [set_inst fst].
             pose proof (sums_nonempty L (st_oracles st) s c m two (HG s Hs) E) as NE'.
             pose proof (sums_spec L (st_oracles st) s c m two (HG s Hs) E) as SP. unfold max_individual_degree.
             destruct (cl_sums c) as [|cs0 l]; [congruence|]. destruct (SP cs0 (or_introl eq_refl)) as (con & _ & (_ & _ & K) & EE & _).
             cbn [map fold_right]. destruct (K _ _ EE) as [-> _]. lia.
          -- rewrite set_claims_composites, set_claims_vars by auto. unfold sets_cost.
             pose proof (set_claims_degree (st_oracles st) two 2 two_compiled sets cms HG ER V) as DG. nia.
        * intros out NT. apply sound_bind0. intros cs E. constructor. cbn [fst].
          destruct (made_claims (st_oracles st) two sets cms HG ER _ _ E) as (_ & _ & E3). apply E3. intros T. apply NT.
          unfold truthful_last, truthful_front in *. cbn [fst snd] in T. rewrite T. apply map_ext. intros i. f_equal. cbn [prefix_point]. apply rev_prefix.
  Qed.

  (** * Claims about deferred compositions *)
  Definition mle_cost (ps : list F * cset L) : nat := (length (cs_constraints (snd ps)) + length (fst ps) * (D + 1))%nat.

  Lemma mle_dec V p (s : cset L) : {set_mle_true L V p s} + {~ set_mle_true L V p s}.
  Proof.
    unfold set_mle_true. induction (cs_constraints s) as [|c l [H|H]].
    + left. intros ? [].
    + destruct (feq_dec F (mle (comp_at V (cs_ids s) (fst c)) p) (snd c)) as [E|E].
      * left. intros c' [<-|Hc]; auto.
      * right. intros K. apply E, K. now left.
    + right. intros K. apply H. intros; apply K. now right.
  Qed.

  Lemma mlecheck_loop_sound (os : oset L) (sets : list (list F * cset L)) cms :
    Forall2 (fun ps cm => constraint_set_claim (snd ps) = Ok cm) sets cms ->
    (forall p s, In (p, s) sets -> set_good L (compiled L D) os s /\ cs_nvars s = length p) ->
    sound (fun cs => map c_id cs = concat (map (fun ps => cs_ids (snd ps)) sets) /\ forall c, In c cs -> claim_sized os c) 0
      (mlecheck_loop (combine (map fst sets) cms)) /\
    forall V, (exists p s, In (p, s) sets /\ ~ set_mle_true L V p s) ->
      sound (some_false V) (list_sum (map mle_cost sets)) (mlecheck_loop (combine (map fst sets) cms)).
  Proof.
    intros F2. induction F2 as [|[p s] [c m] sets cms E F2 IH]; intros HG; cbn [map combine mlecheck_loop].
    - split; [constructor; split; auto; intros ? []|]. intros V (p & s & [] & _).
    - cbn [fst snd] in *. destruct (HG p s (or_introl eq_refl)) as [G N]. destruct (IH (fun p' s' H => HG p' s' (or_intror H))) as [I1 I2].
      assert (F1 : Forall2 (fun s cm => constraint_set_claim s = Ok cm) [s] [(c, m)]) by (constructor; auto).
      assert (G1 : forall s', In s' [s] -> set_good L (compiled L D) os s') by (intros s' [<-|[]]; auto).
      pose proof (fun out cs => made_claims os (compiled L D) [s] [(c, m)] G1 F1 out cs) as MC. cbn [map snd] in MC. split.
      + apply (sound_bind F (fun _ => True) _ 0 0); [apply sound_any|]. intros out _. apply sound_bind0. intros cs Ec.
        destruct (MC _ _ Ec) as (E1 & E2 & _). eapply (sound_bind F _ _ 0 0); [exact I1|]. intros rest (R1 & R2). constructor.
        rewrite map_app, E1, R1. split; [unfold sets_ids; cbn; now rewrite app_nil_r|]. intros c' Hc. apply in_app_iff in Hc as [Hc|Hc]; auto.
      + intros V BAD. rewrite list_sum_cons. cbn [mle_cost].
        destruct (mle_dec V p s) as [T|NT].
        * eapply (sound_mono F _ _ (list_sum (map mle_cost sets))); [|lia|intros a Ha; exact Ha].
          apply (sound_bind F (fun _ => True) _ 0 (list_sum (map mle_cost sets))); [apply sound_any|]. intros out _. apply sound_bind0. intros cs Ec.
          eapply (sound_mono F _ _ (list_sum (map mle_cost sets) + 0)); [eapply (sound_bind F)|lia|intros a Ha; exact Ha].
          -- apply I2. destruct BAD as (p' & s' & [EE|HI] & K); [injection EE as <- <-; tauto|eauto].
          -- intros rest (c' & Hc & K). constructor. exists c'. split; auto. apply in_app_iff. auto.
        * assert (N2 : cl_n c = length p) by (destruct (set_claim_inv L s c m E) as (_ & -> & _); exact N).
          eapply (sound_mono F _ _ (mle_cost (p, s) + 0)); [|lia|intros a Ha; exact Ha].
          eapply (sound_bind F (fun out => ~ truthful_last (set_claims V [s] [(c, m)]) out)).
          -- eapply (sound_mono F).
             ++ apply (eqind_sound F HighToLow AscendingVars (set_claims V [s] [(c, m)]) p).
                ** apply (set_claims_ok os (compiled L D) D (fun _ H => H) [s] [(c, m)] G1 F1).
                ** intros i [<-|[]]. cbn [set_inst fst snd]. apply (sums_nonempty L os s c m (compiled L D) G E).
                ** intros i [<-|[]]. cbn [set_inst fst snd]. lia.
                ** exact I.
                ** exists (set_inst L V s c). split; [now left|]. intros T. apply NT.
                   apply (set_inst_eq_true L os s c m (compiled L D) D (fun _ H => H) G E); auto.
             ++ rewrite (set_claims_composites [s] [(c, m)] F1), (set_claims_vars [s] [(c, m)] F1). cbn [map fold_right]. rewrite list_sum_cons.
                cbn [list_sum fold_right]. unfold mle_cost. cbn [fst snd]. rewrite N, Nat.max_0_r.
                assert (DG : (max_degree (map (reduced p) (set_claims V [s] [(c, m)])) <= D + 1)%nat).
                { cbn [set_claims combine map]. unfold max_degree. cbn [map fold_right]. rewrite Nat.max_0_r.
                  pose proof (sums_degree L os s c m (compiled L D) D (fun _ H => H) G E) as SD.
                  unfold max_individual_degree in *. cbn [reduced set_inst fst snd reduced_claim cl_sums]. rewrite map_map. cbn [fst extra_product c_deg].
                  clear - SD. induction (cl_sums c) as [|cs l IH]; cbn [map fold_right] in *; [lia|]. specialize (IH ltac:(lia)). lia. }
                nia.
             ++ intros out H. exact H.
          -- intros out NTR. apply sound_bind0. intros cs Ec. destruct (MC _ _ Ec) as (_ & _ & E3).
             apply (sound_bind F (fun _ => True) _ 0 0); [apply sound_any|]. intros rest _. constructor.
             destruct (E3 V NTR) as (c' & Hc & K). exists c'. split; auto. apply in_app_iff. auto.
  Qed.

  Lemma mlecheck_stage_sound (st : vstate L) : vstate_ok st -> tracked D st -> exists e,
    sound (fun x => stage_ok st x /\ st_sums (snd x) = st_sums st /\ st_mles (snd x) = [] /\
      (e = 0%nat -> fst x = []) /\ (claims_work L D (st_oracles st) (fst x) + e <= mles_work D (st_oracles st) (st_mles st))%nat) 0 (mlecheck_stage st) /\
    forall V, (exists p b u, In (p, b) (st_mles st) /\ In u b /\ ~ mle_true V p u) ->
      sound (fun x => some_false V (fst x)) e (mlecheck_stage st).
  Proof.
    intros HS HT. unfold mlecheck_stage.
    destruct (take_new_mlechecks_constraints st) as [[sets st']| |] eqn:ET; cbn [vbind fst snd];
      [|exists 0%nat; split; [constructor|intros; constructor]..].
    unfold take_new_mlechecks_constraints in ET. destruct (rmap _ (st_mles st)) as [sets0| |] eqn:ER; try discriminate. cbn [rbind] in ET.
    injection ET as -> <-. apply rmap_inv in ER.
    assert (ER' : Forall2 (fun pb ps => fst ps = fst pb /\ build_one (st_oracles st) (snd pb) = Ok (Built (snd ps))) (st_mles st) sets).
    { eapply Forall2_weaken; [|exact ER]. intros [p b] ps H. cbn [fst snd] in *. destruct (build_one _ b) as [[s|]| |]; try discriminate.
      cbn [rbind] in H. injection H as <-. auto. }
    clear ER. assert (HB : forall p b u, In (p, b) (st_mles st) -> In u b -> ungrouped_ok (st_oracles st) (length p) u /\
        forall pos c, remap_vars (u_comp u) pos = Ok c -> compiled L D c).
    { intros p b u Hp Hu. split; [now apply (proj1 (proj2 (proj2 HS)) p b u)|]. intros pos c Er n k Ek.
      now apply (proj1 (proj2 HT) p b u Hp Hu pos n c k). }
    assert (ALL : (forall p s, In (p, s) sets -> set_good L (compiled L D) (st_oracles st) s /\ cs_nvars s = length p) /\
      (list_sum (map mle_cost sets) + ids_work D (st_oracles st) (concat (map (fun ps => cs_ids (snd ps)) sets)) <= mles_work D (st_oracles st) (st_mles st))%nat /\
      (forall V, (exists p b u, In (p, b) (st_mles st) /\ In u b /\ ~ mle_true V p u) -> exists p s, In (p, s) sets /\ ~ set_mle_true L V p s) /\
      (list_sum (map mle_cost sets) = 0%nat -> sets = [])).
    { clear HT HS. revert HB. induction ER' as [|[p b] [p' s] ms ss [E1 E2] FF IH]; intros HB.
      - split; [intros ? ? []|]. split; [cbn; lia|]. split; auto. intros V (? & ? & ? & [] & _).
      - cbn [fst snd] in *. subst p'. destruct IH as (I1 & I2 & I3 & _); [intros; eapply HB; eauto; now right|].
        destruct (built_inv L D (compiled L D) (st_oracles st) b (length p) s) as (G & N & F2 & W); [intros u Hu; apply (HB p b); auto; now left|exact E2|].
        assert (LB : (1 <= length (cs_constraints s))%nat) by (destruct (cs_constraints s) eqn:EE; [destruct (proj1 G EE)|cbn; lia]).
        split; [|split; [|split]].
        + intros p1 s1 [EE|HI]; [injection EE as <- <-; auto|auto].
        + cbn [map concat]. rewrite !list_sum_cons. unfold ids_work in *. rewrite map_app, list_sum_app. unfold mles_work in *. cbn [map].
          rewrite list_sum_cons. cbn [fst snd]. rewrite builder_cost. unfold mle_cost at 1. cbn [fst snd]. rewrite <- (Forall2_len _ _ _ F2) in *.
          unfold ids_work. nia.
        + intros V (p1 & b1 & u & [EE|HI] & Hu & NT).
          * injection EE as <- <-. exists p, s. split; [now left|]. intros T. apply NT. now apply (proj1 (same_mle L V p _ _ _ F2)).
          * destruct I3 with V as (p2 & s2 & H1 & H2); [eauto 6|]. exists p2, s2. split; auto. now right.
        + cbn [map]. rewrite list_sum_cons. unfold mle_cost at 1. cbn [fst snd]. lia. }
    destruct ALL as (A1 & A2 & A3 & A4). exists (list_sum (map mle_cost sets)).
    destruct (rmap (fun ps => constraint_set_claim (snd ps)) sets) as [cms| |] eqn:EC; cbn [vbind]; [|split; [constructor|intros; constructor]..].
    apply rmap_inv in EC. destruct (mlecheck_loop_sound (st_oracles st) sets cms EC A1) as [B1 B2]. split.
    - eapply (sound_bind F _ _ 0 0); [exact B1|]. intros cs [C1 C2]. constructor. cbn [fst snd]. split; [|split; [reflexivity|split; [reflexivity|split]]].
      + split; [|split; [|split; [reflexivity|split; [reflexivity|exact C2]]]]; cbn [snd].
        * destruct HS as (S1 & S2 & S3 & S4). split; [exact S1|]. split; [exact S2|]. split; [intros ? ? ? []|exact S4].
        * destruct HT as (T1 & T2 & T3 & T4). split; [exact T1|]. split; [intros ? ? ? []|]. split; [exact T3|exact T4].
      + intros Z. apply A4 in Z. subst sets. destruct cs; auto; discriminate.
      + unfold claims_work. rewrite C1. lia.
    - intros V BAD. rewrite <- (Nat.add_0_r (list_sum _)). eapply (sound_bind F); [apply B2, A3, BAD|]. intros cs H. constructor. exact H.
  Qed.
End Stages.
