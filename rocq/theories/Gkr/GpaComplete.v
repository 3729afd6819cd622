(** C41: completeness of the grand product reduction. *)
Require Import Coq.setoid_ring.Ring Coq.Arith.Arith Coq.Lists.List Coq.Bool.Bool Coq.Sorting.Sorted Coq.Sorting.Permutation Lia.
From Verif Require Import Base.Fld Base.Lists Base.Sums Base.Poly Math.MleSpec Math.UnivariateModel Math.UnivariateProps Protocol.Proto Protocol.Conform
  Utils.SortModel Utils.SortProps
  Sumcheck.SumcheckModel Sumcheck.SumcheckSpec Sumcheck.SumcheckProofs Sumcheck.SumcheckSound Sumcheck.BatchProverModel Sumcheck.BatchProverSpec
  Sumcheck.SumcheckProps Sumcheck.EqIndModel Sumcheck.EqIndProps Sumcheck.ZerocheckModel Sumcheck.ZerocheckProofs Gkr.GpaModel Gkr.GpaProps Gkr.GpaProverModel.
Import ListNotations.

Section Spec.
  Variable F : field.
  Local Open Scope fld_scope.

  (** A vector with a constant suffix gives the values of a multilinear with [n] variables. *)
  Definition suffixed_ok (lw n : nat) (m : list F * (F * nat)) (v : nat -> F) : Prop :=
    (exists k, length (fst m) = (k * 2 ^ lw)%nat /\ (k <= 2 ^ (n - lw))%nat) /\
    snd (snd m) = (2 ^ n - length (fst m))%nat /\ forall x, (x < 2 ^ n)%nat -> v x = nth x (fst m) (fst (snd m)).

  (** A builder of eq-ind sumcheck provers is right for points with coordinates from [G]: for true claims about products of
      pairs of multilinears it makes a prover that serves the instance. *)
  Definition builder_ok (G : F -> Prop) {St} (ops : prover_ops F St) lw o
      (build : order -> nat -> list (list F * (F * nat)) -> list F -> list (comp F * F) -> res St) : Prop :=
    forall (claims : list (list F * F)) mls (vs : list (nat -> F)) z sums,
      layer_sums claims = Ok sums -> claims <> [] -> Forall G z -> length vs = (2 * length claims)%nat ->
      Forall2 (suffixed_ok lw (length z)) mls vs ->
      let i := (mkClaim (length z) (length vs) sums, vs) in
      inst_ok i -> eq_claim_true z i ->
      exists s, build o (length z) mls z sums = Ok s /\ serves ops o (reduced z i) (length z) [] s.
End Spec.
Arguments suffixed_ok {_} _ _ _ _.
Arguments builder_ok {_} _ {_} _ _ _ _.

Section Proofs.
  Variable F : field.
  Local Open Scope fld_scope.
  Add Ring Fring : (f_ring F).

  Lemma stage_pair_spec lw l k (layer : list F) : length layer = (k * 2 ^ lw)%nat -> (k <= 2 ^ (S l - lw))%nat ->
    suffixed_ok lw l (with_suffix l (fst (stage_pair lw l layer))) (layer_value F layer) /\
    suffixed_ok lw l (with_suffix l (snd (stage_pair lw l layer))) (fun x => layer_value F layer (x + 2 ^ l)%nat).
  Proof.
    intros L K. unfold stage_pair. pose proof (pow_pos2 lw) as PW. rewrite L, Nat.div_mul by lia.
    destruct (Nat.leb_spec lw l) as [H|H]; cbn [andb].
    - assert (EH : (2 ^ (l - lw) * 2 ^ lw = 2 ^ l)%nat) by (rewrite <- Nat.pow_add_r; f_equal; lia).
      destruct (Nat.ltb_spec k (2 ^ (l - lw))) as [HK|HK]; cbn [fst snd]; unfold with_suffix, suffixed_ok, layer_value; cbn [fst snd].
      + split; (split; [|split; [reflexivity|]]).
        * exists k. split; auto. lia.
        * reflexivity.
        * exists 0%nat. split; [reflexivity|lia].
        * intros x Hx. rewrite nth_overflow by nia. now destruct x.
      + rewrite EH. replace (S l - lw)%nat with (S (l - lw)) in K by lia. cbn [Nat.pow] in K. split; (split; [|split; [reflexivity|]]).
        * exists (2 ^ (l - lw))%nat. split; [rewrite firstn_length; nia|lia].
        * intros x Hx. now rewrite nth_firstn_lt by auto.
        * exists (k - 2 ^ (l - lw))%nat. split; [rewrite skipn_length; nia|lia].
        * intros x Hx. rewrite nth_skipn'. f_equal. lia.
    - cbn [fst snd]. replace (S l - lw)%nat with 0%nat in K by lia. cbn [Nat.pow] in K.
      assert (HP : (2 ^ S l <= 2 ^ lw)%nat) by (apply Nat.pow_le_mono_r; lia). cbn [Nat.pow] in HP.
      set (at_ := fun i => match layer with [] => 1 | _ :: _ => nth i layer 0 end).
      assert (AT : forall i, (i < 2 * 2 ^ l)%nat -> at_ i = layer_value F layer i).
      { intros i Hi. unfold at_, layer_value. destruct layer as [|a layer'] eqn:EL; [now destruct i|]. apply nth_indep. rewrite L. cbn [length] in L. destruct k as [|[|k]]; [cbn in L; lia| |lia]. rewrite Nat.mul_1_l. apply (Nat.lt_le_trans _ _ _ Hi). exact HP. }
      unfold with_suffix, suffixed_ok; cbn [fst snd]. split; (split; [|split; [reflexivity|]]).
      + exists 1%nat. split; [rewrite app_length, map_length, seq_length, repeat_length; lia|]. pose proof (pow_pos2 (l - lw)). lia.
      + intros x Hx. rewrite app_nth1 by (rewrite map_length, seq_length; auto). rewrite (nth_map_lt _ _ _ _ 0%nat) by (rewrite seq_length; auto).
        rewrite seq_nth by auto. symmetry. apply AT. lia.
      + exists 1%nat. split; [rewrite app_length, map_length, seq_length, repeat_length; lia|]. pose proof (pow_pos2 (l - lw)). lia.
      + intros x Hx. rewrite app_nth1 by (rewrite map_length, seq_length; auto). rewrite (nth_map_lt _ _ _ _ 0%nat) by (rewrite seq_length; auto).
        rewrite seq_nth by auto. symmetry. apply AT. lia.
  Qed.

  (** the prover's state for a circuit when [length point] layers are done *)
  Definition state_ok (lw : nat) (point : list F) (g : gp_inst F) (s : list (list F) * F) : Prop :=
    (length point <= fst (fst g))%nat /\ length (fst s) = (fst (fst g) - length point)%nat /\
    (forall j, (j < length (fst s))%nat -> exists k, length (nth j (fst s) []) = (k * 2 ^ lw)%nat /\ (k <= 2 ^ (fst (fst g) - j - lw))%nat /\
       forall x, (x < 2 ^ (fst (fst g) - j))%nat -> layer_value F (nth j (fst s) []) x = up F (fst (fst g)) (snd g) j x) /\
    snd s = mle (ltab F g (length point)) point.

  Lemma last_nth {A} (l : list A) d : last l d = nth (length l - 1) l d.
  Proof. induction l as [|a l IH]; auto. destruct l as [|b l]; auto. change (last (a :: b :: l) d) with (last (b :: l) d). rewrite IH. cbn [length Nat.sub nth]. rewrite Nat.sub_0_r. reflexivity. Qed.

  Lemma removelast_len {A} (l : list A) : length (removelast l) = (length l - 1)%nat.
  Proof. induction l as [|a l IH]; auto. destruct l as [|b l]; auto. change (removelast (a :: b :: l)) with (a :: removelast (b :: l)). cbn [length] in *. rewrite IH. lia. Qed.
  Lemma removelast_nth {A} (l : list A) i d : (i < length l - 1)%nat -> nth i (removelast l) d = nth i l d.
  Proof.
    revert i. induction l as [|a l IH]; intros i Hi; cbn in Hi; [lia|]. destruct l as [|b l]; [cbn in Hi; lia|].
    change (removelast (a :: b :: l)) with (a :: removelast (b :: l)). destruct i as [|i]; [reflexivity|]. cbn [nth] in *. cbn [length] in *. apply IH. lia.
  Qed.

  Lemma stage_layers_spec lw (point : list F) : forall gis ss, Forall2 (state_ok lw point) gis ss ->
    Forall (fun g : gp_inst F => length point < fst (fst g))%nat gis ->
    exists mls, stage_layers lw (length point) ss = Ok (map (fun s => (removelast (fst s), snd s)) ss, mls) /\
      Forall2 (suffixed_ok lw (length point)) mls (halves F (length point) gis).
  Proof.
    induction 1 as [|g [layers e] gis ss H H2 IH]; intros HG; [exists []; split; [reflexivity|constructor]|].
    apply Forall_cons_iff in HG as [Hg HG]. destruct (IH HG) as [mls [E FA]]. destruct H as [_ [LL [HT _]]]. cbn [fst snd] in *.
    cbn [stage_layers]. destruct layers as [|l0 layers'] eqn:EL; [cbn in LL; lia|]. rewrite <- EL in *.
    specialize (HT (length layers - 1)%nat ltac:(lia)) as [k [LK [K V]]]. rewrite last_nth. set (layer := nth (length layers - 1) layers []) in *.
    destruct (stage_pair_spec lw (length point) k layer LK) as [S0 S1]; [replace (S (length point)) with (fst (fst g) - (length layers - 1))%nat by lia; exact K|].
    destruct (stage_pair lw (length point) layer) as [m0 m1] eqn:EP. cbn [fst snd] in S0, S1. rewrite E. cbn [rbind fst snd map].
    exists (with_suffix (length point) m0 :: with_suffix (length point) m1 :: mls). split; [reflexivity|].
    assert (EU : forall x, (x < 2 ^ S (length point))%nat -> layer_value F layer x = ltab F g (S (length point)) x).
    { intros x Hx. rewrite V by (replace (fst (fst g) - (length layers - 1))%nat with (S (length point)) by lia; auto).
      unfold ltab. f_equal. lia. }
    cbn [Nat.pow] in EU. unfold halves. cbn [flat_map app].
    destruct S0 as [A0 [B0 C0]], S1 as [A1 [B1 C1]]. constructor; [|constructor; [|exact FA]].
    - split; [exact A0|]. split; [exact B0|]. intros x Hx. rewrite <- C0 by auto. symmetry. apply EU. lia.
    - split; [exact A1|]. split; [exact B1|]. intros x Hx. rewrite <- C1 by auto. symmetry. apply EU. lia.
  Qed.

  Lemma split_finished_spec (a b : list (list (list F) * F)) : Forall (fun s => fst s <> []) a -> Forall (fun s => fst s = []) b ->
    split_finished (a ++ b) = (a, b).
  Proof.
    induction 1 as [|s a H HA IH]; intros HB; cbn [app].
    - destruct HB as [|s b H _]; [reflexivity|]. cbn [split_finished]. now rewrite H.
    - cbn [split_finished]. destruct (fst s); [congruence|]. now rewrite IH.
  Qed.

  Lemma finalize_all (point : list F) (b : list (list (list F) * F)) : Forall (fun s => fst s = []) b ->
    collect_res (map (gps_finalize point) b) = Ok (map (fun s => (point, snd s)) b).
  Proof.
    intros H. apply (collect_ok (gps_finalize point) (fun s => (point, snd s))). intros s Hs. rewrite Forall_forall in H. unfold gps_finalize. now rewrite (H s Hs).
  Qed.

  Lemma pairs_app_one (l : list F) e m : length l = (2 * m)%nat -> pairs (l ++ [e]) = pairs l.
  Proof.
    revert l. induction m as [|m IH]; intros l L; [destruct l; [reflexivity|cbn in L; lia]|].
    destruct l as [|a [|b l]]; cbn in L; try lia. cbn [app pairs]. rewrite IH by lia. reflexivity.
  Qed.

  Lemma pairs_halves l (gis : list (gp_inst F)) q :
    pairs (map (fun m => mle m q) (halves F l gis)) = map (fun g => (mle (ltab F g (S l)) q, mle (fun x => ltab F g (S l) (x + 2 ^ l)%nat) q)) gis.
  Proof. induction gis as [|g gis IH]; [reflexivity|]. unfold halves in *. cbn [flat_map app map pairs]. now rewrite IH. Qed.

  Lemma run_rounds_gives (G : F -> Prop) n : forall (v : bverifier F) chal evals, Forall G chal ->
    gives G (fun r => Forall G (snd (fst r))) (run_rounds n v chal evals).
  Proof.
    induction n as [|n IH]; intros v chal evals HC; cbn [run_rounds].
    - exact HC.
    - eapply gives_bind; [apply gives_true|]. intros [v1 e1] _. eapply gives_bind; [apply gives_true|]. intros v2 _.
      cbn [vbind gives]. intros c Hc. cbn [vbind]. destruct (finish_round v2 c) as [v3| |]; cbn [vbind gives]; auto.
      apply IH. apply Forall_app. split; auto.
  Qed.

  Lemma eqind_gives (G : F -> Prop) o s (claims : list (claim F)) r : (forall c, In c claims -> (cl_n c <= length r)%nat) ->
    gives G (fun out => Forall G (fst out)) (eqind_verify o s claims r).
  Proof.
    intros HN. unfold eqind_verify. apply (gives_bind F G (fun _ => True)); [apply gives_true|]. intros reg _.
    apply (gives_bind F G (fun _ => True)); [apply gives_true|]. intros v _.
    apply (gives_bind F G (fun out => Forall G (fst out))).
    - unfold bv_run. eapply gives_bind; [apply run_rounds_gives; constructor|]. intros [[v1 chal] evals] H. cbn [fst snd] in H.
      eapply gives_bind; [apply gives_true|]. intros [v2 e2] _. destruct (bv_finish v2); cbn [vbind gives fst]; auto.
    - intros [chal evals] HC. cbn [fst snd] in *.
      destruct (verify_outputs _ _ _ _) as [out| |] eqn:EV; cbn [gives]; auto.
      assert (X : exists chal' evals', (match o with HighToLow => (rev chal, evals) | LowToHigh => (chal, evals) end) = (chal', evals') /\ Forall G chal').
      { destruct o; eexists _, _; (split; [reflexivity|]); auto. now apply Forall_rev. }
      destruct X as [chal' [evals' [EX HC']]]. rewrite EX in EV.
      pose proof (verify_outputs_len F _ _ _ _ _ _ EV) as LC. apply verify_outputs_spec in EV; [|intros; rewrite LC; auto].
      destruct EV as [_ [_ [_ [_ ->]]]]. exact HC'.
  Qed.

  Section Layer.
    Variable G : F -> Prop.
    Variable St : Type.
    Variable ops : prover_ops F St.
    Variable lw : nat.
    Variable o : order.
    Variable build : order -> nat -> list (list F * (F * nat)) -> list F -> list (comp F * F) -> res St.
    Hypothesis BUILD : builder_ok G ops lw o build.

    Lemma bcons (gis : list (gp_inst F)) (claims : list (list F * F)) sums (point : list F) : length claims = length gis ->
      (forall i, (i < length claims)%nat -> let cs := nth i sums (bivariate_product, 0) in
        snd cs = snd (nth i claims ([], 0)) /\ comp_ok (fst cs) /\ c_nv (fst cs) = (2 * length claims)%nat /\ c_deg (fst cs) = 2%nat /\
        forall q, length q = (2 * length claims)%nat -> c_eval (fst cs) q = Ok (nth (2 * i) q 0 * nth (2 * i + 1) q 0)) ->
      length sums = length claims -> Forall (fun g : gp_inst F => length point < fst (fst g))%nat gis ->
      Forall2 (fun g c => snd c = mle (ltab F g (length point)) point) gis claims ->
      inst_ok (layer_inst F (length point) gis sums) /\ eq_claim_true point (layer_inst F (length point) gis sums).
    Proof.
      intros LG PS LS HG TR. split.
      - split; [apply halves_length|]. intros cs Hcs. cbn [layer_inst fst cl_sums] in Hcs. apply In_nth with (d := (bivariate_product, 0)) in Hcs.
        destruct Hcs as [i [Hi <-]]. rewrite LS in Hi. destruct (PS i Hi) as [_ [A [B _]]]. split; auto. cbn [layer_inst fst cl_m]. congruence.
      - intros cs Hcs. cbn [layer_inst fst snd cl_sums cl_n] in *. apply In_nth with (d := (bivariate_product, 0)) in Hcs.
        destruct Hcs as [j [Hj <-]]. rewrite LS in Hj. destruct (PS j Hj) as [SJ [_ [_ [_ EV]]]]. rewrite SJ.
        replace (lastn (length point) point) with point by (unfold lastn; now rewrite Nat.sub_diag).
        set (g0 := ((0%nat, 0), fun _ => 0) : gp_inst F).
        assert (T : snd (nth j claims ([], 0)) = mle (ltab F (nth j gis g0) (length point)) point).
        { clear - TR Hj. revert j Hj. induction TR as [|g c gis claims H _ IH]; intros j Hj; cbn in Hj; [lia|]. destruct j as [|j]; [exact H|]. apply IH. lia. }
        rewrite T. unfold mle. apply sumn_ext. intros x _. f_equal.
        rewrite EV by (rewrite map_length, halves_length; congruence). cbn [val].
        rewrite !(nth_map_lt _ _ _ _ (fun _ => 0)) by (rewrite halves_length; lia).
        destruct (halves_nth F (length point) gis j g0 ltac:(lia)) as [-> ->]. apply ltab_step.
        rewrite Forall_forall in HG. apply HG, nth_In. lia.
    Qed.

    (** the prover's part of a layer *)
    Definition layer_prover (ss : list (list (list F) * F)) (point : list F) {A} (k : list (list (list F) * F) -> list F -> pproto F A) : pproto F A :=
      put sp <- PRet (stage_sumcheck build lw o ss point);
      put b <- bp_new ops [snd sp];
      put out <- bp_run ops b;
      put c <- psample;
      let challenges := match o with HighToLow => rev (fst out) | LowToHigh => fst out end in
      if negb (length challenges =? length point)%nat then PRet Panic
      else match snd out with
           | [] => PRet Panic
           | evals :: _ =>
             k (map (fun se => (fst (fst se), extrapolate_line (fst (snd se)) (snd (snd se)) c)) (combine (fst sp) (pairs evals))) (challenges ++ [c])
           end.

    Lemma layer_conform {A B} (R : A -> B -> Prop) (gis : list (gp_inst F)) (ss : list (list (list F) * F)) (point : list F) k k' :
      Forall G point -> ss <> [] -> Forall2 (state_ok lw point) gis ss -> Forall (fun g : gp_inst F => length point < fst (fst g))%nat gis ->
      (forall ss' point', length point' = S (length point) -> Forall G point' -> Forall2 (state_ok lw point') gis ss' ->
         conform G R (k ss' point') (k' (map (fun s => (point', snd s)) ss'))) ->
      conform G R (layer_prover ss point k) (get next <- reduce_layer o (map (fun s => (point, snd s)) ss); k' next).
    Proof.
      intros HP NE HS HG HK. set (claims := map (fun s : list (list F) * F => (point, snd s)) ss).
      pose proof (forall2_len _ _ _ HS) as LGS. assert (LC : length claims = length gis) by (unfold claims; rewrite map_length; auto).
      assert (ES : exists s0 ss', ss = s0 :: ss') by (destruct ss; [congruence|eauto]). destruct ES as [s0 [ss' ES]].
      assert (EC : claims = (point, snd s0) :: map (fun s => (point, snd s)) ss') by (unfold claims; rewrite ES; reflexivity).
      rewrite (reduce_layer_eq F o claims _ _ EC). cbn [fst].
      assert (FB : forallb (fun c => feqb_list (fst c) point) claims = true).
      { apply forallb_forall. intros c Hc. unfold claims in Hc. apply in_map_iff in Hc as [s [<- _]]. now apply feqb_list_eq. }
      rewrite FB. cbn [negb]. unfold layer_prover, stage_sumcheck. fold claims.
      destruct (layer_sums_ok F claims) as [sums [ESM [LS [EN PS]]]]. rewrite ESM. cbn [rbind vbind].
      assert (EH : fst (hd ([], 0) claims) = point) by (now rewrite EC). rewrite EH in EN. rewrite EN. cbn [vbind].
      destruct (stage_layers_spec lw point gis ss HS HG) as [mls [EST FM]]. rewrite EST. cbn [rbind fst snd].
      assert (TR : Forall2 (fun g c => snd c = mle (ltab F g (length point)) point) gis claims).
      { unfold claims. clear - HS. induction HS as [|g s gis ss [_ [_ [_ H]]] _ IH]; cbn [map]; constructor; auto. }
      destruct (bcons gis claims sums point LC PS LS HG TR) as [IOK EQT].
      assert (NEC : claims <> []) by (rewrite EC; discriminate).
      pose proof (BUILD claims mls (halves F (length point) gis) point sums ESM NEC HP) as BB. cbv zeta in BB. rewrite halves_length in BB.
      fold (layer_inst F (length point) gis sums) in BB. set (i0 := layer_inst F (length point) gis sums) in *.
      destruct (BB ltac:(lia) FM IOK EQT) as [s [EB SV]].
      rewrite EB. cbn [rbind pbind fst snd].
      assert (NS : forall i, In i [i0] -> cl_sums (fst i) <> []).
      { intros i [<-|[]]. cbn [i0 layer_inst fst cl_sums]. intros E. rewrite E in LS. rewrite EC in LS. cbn in LS. lia. }
      assert (FIO : Forall inst_ok [i0]) by (constructor; [exact IOK|constructor]).
      assert (MV : max_vars [i0] = length point) by (unfold max_vars; cbn; lia).
      assert (SRT : StronglySorted le (map (fun i : inst F => cl_n (fst i)) [i0])) by (repeat constructor).
      assert (SVS : Forall2 (fun i s => serves ops o i (cl_n (fst i)) [] s) (map (reduced point) [i0]) [s]) by (constructor; [exact SV|constructor]).
      destruct (eqind_complete F ops o DescendingVars [i0] [s] point FIO NS (eq_sym MV)) as [TOT RUN]; auto.
      { destruct o; cbn; auto. intros i [<-|[]]. reflexivity. }
      destruct (front_loaded_complete F ops o (map (reduced point) [i0]) [s]) as [_ RUN2]; auto.
      { constructor; [now apply reduced_ok|constructor]. }
      { now apply reduced_some_degree. }
      { constructor; [|constructor]. apply reduced_true; auto. }
      replace (mkClaim (length point) (2 * length claims) sums) with (fst i0) by (cbn [i0 layer_inst fst]; now rewrite LC).
      set (rest_p := fun out : list F * list (list F) => PSample _). set (rest_v0 := fun out : list F * list (list F) => VSample _).
      set (rest_v := fun out => vbind (rest_v0 out) k').
      apply (conform_ext F G R (pbind (put b <- bp_new ops [s]; bp_run ops b) rest_p) _ (vbind (eqind_verify o DescendingVars [fst i0] point) rest_v)).
      { intros cs. rewrite !prun_pbind. destruct (prun (bp_new ops [s]) cs) as [[[b t] r]| |]; cbn [rbind fst snd]; auto.
        rewrite prun_pbind. destruct (prun (bp_run ops b) r) as [[[b' t'] r']| |]; cbn [rbind fst snd]; auto.
        destruct (prun (rest_p b') r') as [[[b2 t2] r2]| |]; cbn [rbind fst snd]; auto. now rewrite app_assoc. }
      { intros t cs. rewrite !vrun_bind. destruct (vrun _ t cs) as [[[b t'] r]| |]; cbn [rbind fst snd]; auto. unfold rest_v. now rewrite vrun_bind. }
      apply (conform_bind F G (fun out out' => (fst out' = (match o with HighToLow => rev (fst out) | LowToHigh => fst out end) /\ truthful_last [i0] out' /\
               truthful_front o (map (reduced point) [i0]) out) /\ (length (fst out') = length point /\ Forall G (fst out')))).
      { apply conform_post.
        - intros tape cs b t r HGc E. split.
          + exact (proj1 (returns_vrun F _ _ (eqind_shape F o DescendingVars [fst i0] point ltac:(intros c [<-|[]]; cbn; lia)) _ _ _ _ _ E)).
          + exact (gives_vrun F G _ _ (eqind_gives G o DescendingVars [fst i0] point ltac:(intros c [<-|[]]; cbn; lia)) _ _ _ _ _ HGc E).
        - split; [intros ch _; apply TOT|]. intros cs out tape rest _ E extra. destruct (RUN _ _ _ _ E extra) as [out' [EV [E1 E2]]].
          destruct (RUN2 _ _ _ _ E extra) as [_ T]. exists out'. auto. }
      intros [chal evs] [q evs'] [[EQ [T T2]] [LQ GQ]]. cbn [fst snd] in *. unfold rest_p, rest_v, rest_v0. cbn [pbind vbind fst snd].
      apply conform_sample. intros c Hc. rewrite <- EQ, LQ, Nat.eqb_refl. cbn [negb].
      unfold truthful_last in T. unfold truthful_front in T2. cbn [fst snd map] in T, T2.
      replace (lastn (cl_n (fst i0)) q) with q in T by (unfold lastn; cbn [i0 layer_inst fst cl_n]; now rewrite LQ, Nat.sub_diag).
      assert (PP : prefix_point o (cl_n (fst (reduced point i0))) chal = q).
      { rewrite EQ. cbn [reduced reduced_claim fst cl_n i0 layer_inst]. rewrite EQ in LQ.
        unfold prefix_point. destruct o; rewrite firstn_all2; auto; rewrite ?rev_length in LQ; lia. }
      rewrite PP in T2. rewrite T, T2.
      assert (ER : mvals (reduced point i0) q = mvals i0 q ++ [mle (eqw (lastn (cl_n (fst i0)) point)) q]) by (unfold mvals; cbn [reduced snd]; now rewrite map_app).
      rewrite ER, (pairs_app_one _ _ (length gis)) by (unfold mvals; rewrite map_length; apply halves_length).
      unfold mvals. cbn [i0 layer_inst snd]. rewrite pairs_halves.
      set (prs := map (fun g : gp_inst F => (mle (ltab F g (S (length point))) q, mle (fun x => ltab F g (S (length point)) (x + 2 ^ length point)%nat) q)) gis).
      set (st' := map (fun se => (fst (fst se), extrapolate_line (fst (snd se)) (snd (snd se)) c)) (combine (map (fun s => (removelast (fst s), snd s)) ss) prs)).
      replace (map (fun p => (q ++ [c], extrapolate_line (fst p) (snd p) c)) prs) with (map (fun s => (q ++ [c], snd s)) st').
      - apply HK; [rewrite app_length; cbn; lia|apply Forall_app; auto|].
        unfold st', prs. clear - HS HG LQ. induction HS as [|g s gis ss H HS IH]; [constructor|]. apply Forall_cons_iff in HG as [Hg HG].
        cbn [map combine fst snd]. constructor; [|auto]. destruct H as [_ [LL [HT _]]]. unfold state_ok. cbn [fst snd]. rewrite app_length, LQ. cbn [length].
        split; [lia|]. split; [rewrite removelast_len; lia|]. split.
        + intros j Hj. rewrite removelast_len in Hj. rewrite removelast_nth by lia. apply HT. lia.
        + rewrite Nat.add_1_r, (ltab_line F _ (length point)) by auto. unfold extrapolate_line. ring.
      - unfold st'. rewrite map_map. cbn [snd]. assert (LL : length (map (fun s => (removelast (fst s), snd s)) ss) = length prs) by (unfold prs; rewrite !map_length; auto).
        clear - LL. revert LL. generalize prs, (map (fun s : list (list F) * F => (removelast (fst s), snd s)) ss).
        induction prs0 as [|p prs0 IH]; intros [|s l] LL; cbn in LL; try lia; [reflexivity|]. cbn [combine map fst snd]. now rewrite IH by lia.
    Qed.

    Lemma gpa_layers_nil todo : forall l (fin : list (list F * F)), gpa_layers o todo l [] [] fin = VRet (Ok fin).
    Proof.
      induction todo as [|todo IH]; intros l fin; cbn [gpa_layers process_finished rev pop_finished rbind vbind]; [reflexivity|].
      cbn [reduce_layer vbind]. apply IH.
    Qed.


    Lemma state_fin point fg fs : Forall2 (state_ok lw point) fg fs -> Forall (fun g : gp_inst F => fst (fst g) = length point) fg ->
      Forall2 final_true (rev fg) (rev (map (fun s => (point, snd s)) fs)) /\ Forall (fun s : list (list F) * F => fst s = []) fs.
    Proof.
      intros H HE. split.
      - apply forall2_rev. induction H as [|g s fg fs [_ [_ [_ H]]] _ IH]; cbn [map]; constructor; [|apply IH; now apply Forall_inv_tail in HE].
        apply Forall_inv in HE. unfold final_true, final_shape. cbn [fst snd]. split; [auto|]. rewrite H, <- HE, ltab_bottom. reflexivity.
      - induction H as [|g s fg fs [_ [H _]] _ IH]; constructor; [|apply IH; now apply Forall_inv_tail in HE].
        apply Forall_inv in HE. destruct (fst s); [reflexivity|cbn in H; lia].
    Qed.
    Lemma state_active point ag ss : Forall2 (state_ok lw point) ag ss -> Forall (fun g : gp_inst F => length point < fst (fst g))%nat ag ->
      Forall (fun s : list (list F) * F => fst s <> []) ss.
    Proof.
      intros H HE. induction H as [|g s fg fs [_ [H _]] _ IH]; constructor; [|apply IH; now apply Forall_inv_tail in HE].
      apply Forall_inv in HE. intros E. rewrite E in H. cbn in H. lia.
    Qed.
    Lemma state_le point gis ss : Forall2 (state_ok lw point) gis ss -> Forall (fun g : gp_inst F => length point <= fst (fst g))%nat gis.
    Proof. induction 1 as [|g s gis ss H _ IH]; [constructor|]. constructor; [apply H|exact IH]. Qed.
    Lemma app_same_len {A} (a b c d : list A) : a ++ b = c ++ d -> length a = length c -> a = c /\ b = d.
    Proof. revert c. induction a as [|x a IH]; intros [|y c] E L; cbn in *; try lia; auto. injection E as -> E. destruct (IH c E ltac:(lia)) as [-> ->]. auto. Qed.

    (** both sides put aside the same finished claims *)
    Lemma loop_split (gis : list (gp_inst F)) ss fin point :
      StronglySorted ge (map (fun g : gp_inst F => fst (fst g)) gis) -> Forall2 (state_ok lw point) gis ss ->
      exists ag fg as_ fs, gis = ag ++ fg /\ Forall2 (state_ok lw point) ag as_ /\ Forall2 (state_ok lw point) fg fs /\
        Forall (fun g : gp_inst F => fst (fst g) = length point) fg /\ Forall (fun g : gp_inst F => length point < fst (fst g))%nat ag /\
        let fin' := fin ++ rev (map (fun s => (point, snd s)) fs) in
        process_finished (length point) (map (fun s => (point, snd s)) ss) (map fst gis) fin = Ok (map fst ag, map (fun s => (point, snd s)) as_, fin') /\
        process_finished_provers ss fin point = Ok (as_, fin').
    Proof.
      intros S HS. destruct (process_finished_spec F (length point) gis (map (fun s => (point, snd s)) ss) fin) as [ag [fg [al [fl [E1 [E2 [L1 [L2 [F1 [F2 EP]]]]]]]]]].
      - rewrite map_length. symmetry. eapply forall2_len. exact HS.
      - exact S.
      - eapply state_le. exact HS.
      - rewrite EP. subst gis. apply Forall2_app_inv_l in HS as [as_ [fs [HA [HF ->]]]]. exists ag, fg, as_, fs.
        split; [reflexivity|]. split; [exact HA|]. split; [exact HF|]. split; [exact F1|]. split; [exact F2|]. cbv zeta.
        rewrite map_app in E2. apply app_same_len in E2 as [<- <-]; [|rewrite map_length, <- L2; symmetry; eapply forall2_len; exact HA].
        split; [reflexivity|]. unfold process_finished_provers. rewrite (split_finished_spec as_ fs).
        + rewrite finalize_all by (apply Forall_rev; eapply state_fin; eauto). cbn [rbind]. now rewrite map_rev.
        + eapply state_active; eauto.
        + eapply state_fin; eauto.
    Qed.

    Lemma loop_conform : forall todo (gis done : list (gp_inst F)) ss fin point,
      Forall G point -> StronglySorted ge (map (fun g : gp_inst F => fst (fst g)) gis) ->
      Forall (fun g : gp_inst F => fst (fst g) <= length point + todo)%nat gis -> Forall2 (state_ok lw point) gis ss -> Forall2 final_true done fin ->
      conform G (fun out out' => out = out' /\ Forall2 final_true (done ++ rev gis) out')
        (gpa_prove_loop ops build todo lw o ss fin point)
        (gpa_layers o todo (length point) (map fst gis) (map (fun s => (point, snd s)) ss) fin).
    Proof.
      induction todo as [|todo IH]; intros gis done ss fin point HP S HT HS HD;
        destruct (loop_split gis ss fin point S HS) as [ag [fg [as_ [fs [E1 [HA [HF [F1 [F2 [EP EPP]]]]]]]]]];
        cbn [gpa_prove_loop gpa_layers]; rewrite EP, EPP; cbn [pbind vbind fst snd];
        pose proof (proj1 (state_fin point fg fs HF F1)) as FT; pose proof (forall2_len _ _ _ HA) as LA; subst gis; apply Forall_app in HT as [HT _].
      - destruct ag as [|g ag]; [|apply Forall_inv in F2; apply Forall_inv in HT; lia]. destruct as_; [|discriminate].
        apply conform_ret. split; [reflexivity|]. cbn [app]. now apply Forall2_app.
      - destruct as_ as [|s0 as0] eqn:EA.
        + destruct ag; [|discriminate]. cbn [map reduce_layer vbind]. rewrite gpa_layers_nil. apply conform_ret. split; [reflexivity|]. cbn [app]. now apply Forall2_app.
        + rewrite <- EA in HA. assert (NE : as_ <> []) by (rewrite EA; discriminate). rewrite <- EA. clear EA EP EPP LA s0 as0.
          change (conform G (fun out out' => out = out' /\ Forall2 final_true (done ++ rev (ag ++ fg)) out')
            (layer_prover as_ point (fun ss' point' => gpa_prove_loop ops build todo lw o ss' (fin ++ rev (map (fun s => (point, snd s)) fs)) point'))
            (get next <- reduce_layer o (map (fun s => (point, snd s)) as_);
             (fun next => gpa_layers o todo (Datatypes.S (length point)) (map fst ag) next (fin ++ rev (map (fun s => (point, snd s)) fs))) next)).
          apply (layer_conform _ ag); auto. intros ss' point' LP GP HS'. rewrite <- LP.
          eapply conform_mono; [|apply (IH ag (done ++ rev fg)); auto].
          * intros a b [E X]. split; [exact E|]. rewrite rev_app_distr, app_assoc. exact X.
          * rewrite map_app in S. now apply ss_app_l in S.
          * eapply Forall_impl; [|exact HT]. cbn. intros g Hg. rewrite LP. lia.
          * now apply Forall2_app.
    Qed.
  End Layer.

  Lemma insert_ext {A} (le1 le2 : A -> A -> bool) x l : (forall a b, le1 a b = le2 a b) -> insert le1 x l = insert le2 x l.
  Proof. intros H. induction l as [|y l IH]; cbn [insert]; [reflexivity|]. rewrite H. destruct (le2 x y); [reflexivity|]. now rewrite IH. Qed.
  Lemma sort_by_ext {A} (le1 le2 : A -> A -> bool) l : (forall a b, le1 a b = le2 a b) -> sort_by le1 l = sort_by le2 l.
  Proof. intros H. induction l as [|y l IH]; cbn [sort_by fold_right]; [reflexivity|]. fold (sort_by le1 l) (sort_by le2 l). rewrite IH. now apply insert_ext. Qed.
  Lemma stable_sort_ext {A} (k1 k2 : A -> nat) d l : (forall a, k1 a = k2 a) -> stable_sort l k1 d = stable_sort l k2 d.
  Proof.
    intros H. unfold stable_sort. destruct d.
    - rewrite (sort_by_ext (fun a b : nat * A => k1 (snd b) <=? k1 (snd a))%nat (fun a b => k2 (snd b) <=? k2 (snd a))%nat) by (intros; now rewrite !H). reflexivity.
    - rewrite (sort_by_ext (fun a b : nat * A => k1 (snd a) <=? k1 (snd b))%nat (fun a b => k2 (snd a) <=? k2 (snd b))%nat) by (intros; now rewrite !H). reflexivity.
  Qed.

  Lemma build_layers_length lw n : forall input : list F, length (build_layers lw n input) = S n.
  Proof. induction n as [|n IH]; intros input; cbn [build_layers length]; auto. Qed.

  (** a circuit given by its number of variables and its input *)
  Definition job_inst (j : nat * list F) : gp_inst F := ((fst j, prodn (2 ^ fst j) (layer_value F (snd j))), layer_value F (snd j)).

  (** For circuits with their witnesses, the prover of the true claims finishes, and the verifier accepts what it wrote,
      drawing the same challenges; both return the same claims, and these are true. *)
  Theorem gpa_complete (G : F -> Prop) {St} (ops : prover_ops F St) lw o build (jobs : list (nat * list F)) witnesses :
    builder_ok G ops lw o build ->
    (forall j, In j jobs -> exists k, length (snd j) = (k * 2 ^ lw)%nat /\ (k <= 2 ^ (fst j - lw))%nat) ->
    collect_res (map (fun j => gp_witness_new lw (fst j) (snd j)) jobs) = Ok witnesses ->
    let insts := map job_inst jobs in
    conform G (fun out out' => out = out' /\ Forall2 final_true insts out')
      (gpa_prove ops build lw o witnesses (map fst insts)) (gpa_verify o (map fst insts)).
  Proof.
    intros BUILD HJ EW. cbv zeta.
    set (wit := fun j : nat * list F => build_layers lw (fst j) (snd j)).
    assert (WJ : forall j, In j jobs -> gp_witness_new lw (fst j) (snd j) = Ok (wit j) /\ grand_product_evaluation (wit j) = snd (fst (job_inst j)) /\
                  gp_n_vars (wit j) = fst j).
    { intros j Hj. destruct (HJ j Hj) as [k [LK K]]. pose proof (gp_witness_spec F lw (fst j) k (snd j) LK) as W.
      rewrite (proj2 (Nat.leb_le _ _) K) in W. destruct W as [layers [E [N [_ [_ [_ V]]]]]].
      unfold gp_witness_new in *. destruct (_ <? _)%nat; [discriminate|]. injection E as <-. split; [reflexivity|]. split; auto. }
    assert (EWS : witnesses = map wit jobs).
    { rewrite (collect_ok (fun j => gp_witness_new lw (fst j) (snd j)) wit) in EW by (intros j Hj; now apply WJ). congruence. }
    subst witnesses. unfold gpa_prove. rewrite !map_length, Nat.eqb_refl. cbn [negb].
    set (st0 := fun j : nat * list F => (removelast (wit j), snd (fst (job_inst j)))).
    assert (ES : collect_res (map (fun wc => gps_new (snd wc) (fst wc)) (combine (map wit jobs) (map fst (map job_inst jobs)))) = Ok (map st0 jobs)).
    { replace (map (fun wc => gps_new (snd wc) (fst wc)) (combine (map wit jobs) (map fst (map job_inst jobs)))) with
        (map (fun j => gps_new (fst (job_inst j)) (wit j)) jobs).
      - apply (collect_ok (fun j => gps_new (fst (job_inst j)) (wit j)) st0). intros j Hj. destruct (WJ j Hj) as [_ [V N]]. unfold gps_new.
        rewrite V, N, Nat.eqb_refl, feqb_refl. cbn [negb orb].
        pose proof (build_layers_length lw (fst j) (snd j)) as LB. fold (wit j) in LB. destruct (wit j) as [|a l] eqn:E; [discriminate|].
        unfold st0. now rewrite E.
      - clear. induction jobs as [|j jobs IH]; [reflexivity|]. cbn [map combine fst snd]. now rewrite IH. }
    rewrite ES. cbn [pbind]. unfold gpa_verify. rewrite !stable_sort_map.
    rewrite (stable_sort_ext (fun a => length (fst (st0 a))) (fun j => fst j)) by
      (intros j; unfold st0; cbn [fst]; rewrite removelast_len; unfold wit; rewrite build_layers_length; lia).
    cbn [fst snd job_inst].
    pose proof (stable_sort_spec (map job_inst jobs) (fun g : gp_inst F => fst (fst g)) true) as SP.
    pose proof (unsort_forall2 F final_true (map job_inst jobs)) as UF.
    rewrite !stable_sort_map in SP, UF.
    cbn [fst snd job_inst] in SP, UF.
    assert (SUB : forall j, In j (snd (stable_sort jobs (fun j => fst j) true)) -> In j jobs).
    { intros j Hj. unfold stable_sort in Hj. cbn [snd] in Hj. apply in_map_iff in Hj as [[i j'] [<- Hj]].
      apply (Permutation_in _ (sort_perm _ _)) in Hj. apply in_combine_r in Hj. exact Hj. }
    destruct (stable_sort jobs (fun j => fst j) true) as [idx sorted]. cbn [fst snd] in *. destruct SP as [_ [_ [_ [SS _]]]].
    replace (match map st0 sorted with [] => 0%nat | s :: _ => length (fst s) end) with
      (match map fst (map job_inst sorted) with [] => 0%nat | c :: _ => fst c end) by
      (destruct sorted as [|j l]; [reflexivity|]; cbn [map st0 fst]; rewrite removelast_len; unfold wit; rewrite build_layers_length; cbn; lia).
    set (todo := match map fst (map job_inst sorted) with [] => 0%nat | c :: _ => fst c end).
    eapply conform_bind.
    - replace (map (fun c : nat * F => ([], snd c)) (map fst (map job_inst sorted))) with (map (fun s : list (list F) * F => (@nil F, snd s)) (map st0 sorted)) by
        (rewrite !map_map; reflexivity).
      apply (loop_conform G St ops lw o build BUILD todo (map job_inst sorted) [] (map st0 sorted) [] []); auto.
      + apply (sorted_hd F (map job_inst sorted)) in SS. eapply Forall_impl; [|exact SS]. cbn beta. intros g [_ H]. exact H.
      + clear - SUB HJ. induction sorted as [|j sorted IH]; [constructor|]. cbn [map]. constructor; [|apply IH; intros; apply SUB; now right].
        destruct (HJ j (SUB j (or_introl eq_refl))) as [k [LK K]].
        destruct (build_layers_spec F lw (fst j) k (snd j) LK K) as [A [B [C D]]].
        unfold state_ok. cbn [fst snd length st0]. split; [lia|]. split; [rewrite removelast_len; unfold wit; rewrite A; cbn [job_inst fst]; lia|]. split.
        * intros i Hi. rewrite removelast_len in Hi. unfold wit in Hi |- *. rewrite A in Hi. rewrite removelast_nth by (rewrite A; lia).
          destruct (D i ltac:(lia)) as [ki [E1 E2]]. exists ki. split; [exact E1|]. split; [exact E2|]. cbn [job_inst fst snd].
          assert (IHU : forall i, (i <= fst j)%nat -> forall x, (x < 2 ^ (fst j - i))%nat ->
                    layer_value F (nth i (build_layers lw (fst j) (snd j)) []) x = up F (fst j) (layer_value F (snd j)) i x).
          { clear - B C. induction i as [|i IH]; intros Hi x Hx; [now rewrite B|]. cbn [up]. rewrite C by (auto; lia).
            assert (EQ : (2 ^ (fst j - i) = 2 * 2 ^ (fst j - S i))%nat) by (replace (fst j - i)%nat with (S (fst j - S i)) by lia; reflexivity).
            rewrite !IH by (rewrite ?EQ; lia). reflexivity. }
          apply IHU. lia.
        * cbn [job_inst fst snd]. rewrite mle_nil. symmetry. apply (ltab_top F (job_inst j)).
    - intros fin fin' [<- HF]. apply conform_ret. split; [reflexivity|]. cbn [app] in HF. apply UF.
      + rewrite rev_length. apply forall2_len in HF. rewrite rev_length in HF. auto.
      + rewrite <- (rev_involutive (map job_inst sorted)). now apply forall2_rev.
  Qed.
End Proofs.
