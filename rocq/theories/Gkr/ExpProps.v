(** Exponentiation claims: soundness of the reduction, no panics, claims about oracles, counterexamples. *)
Require Import Coq.setoid_ring.Ring Coq.NArith.NArith Coq.Arith.Arith Coq.Lists.List Coq.Bool.Bool Coq.Sorting.Sorted Lia.
From Verif Require Import Base.Fld Base.Lists Base.Sums Base.Poly Math.MleSpec Math.UnivariateModel Math.UnivariateProps Protocol.Proto Protocol.Soundness
  Protocol.Safe Utils.SortModel Utils.SortProps Field.Examples Transparent.TransparentModel
  Sumcheck.SumcheckModel Sumcheck.SumcheckSpec Sumcheck.SumcheckProofs Sumcheck.SumcheckSound
  Sumcheck.SumcheckProps Sumcheck.EqIndModel Sumcheck.EqIndProps Sumcheck.ZerocheckModel Gkr.GpaProps Gkr.ExpSpec Gkr.ExpModel Gkr.ExpProofs.
Import ListNotations.

Section Props.
  Variable F : field.
  Local Open Scope fld_scope.
  Add Ring Fring : (f_ring F).

  Local Notation exp_inst := (exp_inst F).
  Local Notation exp_claim := (exp_claim F).

  Definition g_inst (g : list F * inst F) : inst F := reduced (fst g) (snd g).

  Lemma flat_values_groups o l (chal : list F) (ivs : list (exp_inst * exp_claim)) gs : Forall (v_ok F l) ivs -> grouped F l ivs gs ->
    concat (map (g_values F o chal) gs) = flat_values F o l chal ivs /\ list_sum (map (fun g => length (snd (snd g))) gs) = length (all_tabs F l ivs).
  Proof.
    intros OK [_ [_ [G3 _]]].
    set (h := fun tn : (nat -> F) * nat => mle (fst tn) (suffix_point o (snd tn) chal)).
    split.
    - assert (A : concat (map (g_values F o chal) gs) = map h (flat_map (fun g : list F * inst F => map (fun t => (t, length (fst g))) (snd (snd g))) gs)).
      { clear. induction gs as [|g gs IH]; [reflexivity|]. cbn [map concat flat_map]. rewrite map_app, map_map, <- IH. reflexivity. }
      rewrite A. replace (flat_map _ gs) with (flat_map (fun iv : exp_inst * exp_claim => map (fun t => (t, length (ex_point (snd iv)))) (vtabs F (fst iv) l)) ivs).
      clear - OK. induction OK as [|[i v] ivs OKv OK IH]; [reflexivity|]. unfold flat_values in *. cbn [flat_map]. rewrite map_app, map_map, IH. f_equal.
      cbn [fst snd h]. destruct OKv as [_ [_ [-> _]]]. reflexivity.
    - assert (A : length (flat_map (fun g : list F * inst F => map (fun t => (t, length (fst g))) (snd (snd g))) gs) = list_sum (map (fun g => length (snd (snd g))) gs)).
      { clear. induction gs as [|g gs IH]; [reflexivity|]. cbn [map flat_map]. rewrite app_length, map_length, IH. reflexivity. }
      rewrite <- A. replace (flat_map _ gs) with (flat_map (fun iv : exp_inst * exp_claim => map (fun t => (t, length (ex_point (snd iv)))) (vtabs F (fst iv) l)) ivs).
      clear. induction ivs as [|iv ivs IH]; [reflexivity|]. unfold all_tabs in *. cbn [flat_map]. rewrite !app_length, map_length, IH. reflexivity.
  Qed.

  Lemma removelast_length {A} (l : list A) : length (removelast l) = (length l - 1)%nat.
  Proof. induction l as [|a [|b l] IH]; [reflexivity..|]. change (removelast (a :: b :: l)) with (a :: removelast (b :: l)). cbn [length] in *. lia. Qed.

  Lemma concat_length_sum {A} (l : list (list A)) : length (concat l) = list_sum (map (@length A) l).
  Proof. induction l as [|a l IH]; [reflexivity|]. cbn [concat map]. rewrite app_length, IH. reflexivity. Qed.

  (** what is learnt from the output of the sumcheck of one layer *)
  Lemma layer_out_ok o l ivs (gs : list (list F * inst F)) extra out : Forall (v_ok F l) ivs -> grouped F l ivs gs ->
    (forall g, In g gs -> (length (fst g) <= length (fst out))%nat) ->
    map (@length F) (snd out) = map (fun g => S (length (snd (snd g)))) gs ->
    exponent_bit_claims o l (map snd ivs) out (map fst gs ++ extra) = Err \/
    exists cs ivs', exponent_bit_claims o l (map snd ivs) out (map fst gs ++ extra) = Ok (cs, map snd ivs') /\ map fst ivs' = map fst ivs /\
      (forall iv, In iv ivs' -> ex_width (snd iv) = xi_w (fst iv) /\ (l < xi_w (fst iv))%nat /\ ((xi_w (fst iv) <> l + 1)%nat -> v_ok F (S l) iv)) /\
      layer_shape F l (map fst ivs) cs /\
      (Forall (base_not_one F) (map fst ivs) -> Forall2 claim_holds (flat_map (fun i => out_tabs i l) (map fst ivs)) cs ->
       (forall iv, In iv ivs' -> (xi_w (fst iv) <> l + 1)%nat -> v_true F (S l) iv) ->
         truthful o (map g_inst gs) out /\ forall iv, In iv ivs -> ~ acting F l iv -> v_true F l iv).
  Proof.
    intros OK G HC LE. unfold inst in *. destruct out as [chal evals]. cbn [fst snd] in HC, LE. unfold exponent_bit_claims. cbn [fst snd].
    pose proof G as [G1 [_ [G3 _]]]. rewrite Forall_forall in G1.
    destruct (check_eq_ok F o chal gs evals extra) as [E|[E X]]; auto.
    { apply Forall_forall. intros g Hg. destruct (G1 g Hg) as [_ [A _]]. split; [exact A|auto]. }
    { rewrite E. left. reflexivity. }
    rewrite E. cbn [rbind]. destruct (flat_values_groups o l chal ivs gs OK G) as [FV FL].
    assert (LR : map (@length F) (map (@removelast F) evals) = map (fun g : list F * inst F => length (snd (snd g))) gs).
    { rewrite map_map. clear - LE. revert evals LE. induction gs as [|g gs IH]; intros [|e evals] LE; try discriminate; [reflexivity|].
      cbn [map] in *. injection LE as L1 L2. apply f_equal2; [|now apply IH].
      rewrite removelast_length, L1. apply Nat.sub_0_r. }
    destruct (finish_layers_ok F o l chal ivs (concat (map (@removelast F) evals)) OK) as [cs [ivs' [E2 [M [V [S T]]]]]].
    { rewrite concat_length_sum, LR. exact FL. }
    { intros [i v] Hiv A. unfold acting in A. cbn [fst] in *. destruct (vtabs F i l) as [|t ts] eqn:EV; [exfalso; now apply A|].
      assert (IN : In (t, length (ex_point v)) (flat_map (fun g : list F * inst F => map (fun t => (t, length (fst g))) (snd (snd g))) gs)).
      { replace (flat_map _ gs) with (flat_map (fun iv : exp_inst * exp_claim => map (fun t => (t, length (ex_point (snd iv)))) (vtabs F (fst iv) l)) ivs).
        apply in_flat_map. exists (i, v). split; auto. cbn [fst snd]. rewrite EV. now left. }
      apply in_flat_map in IN as [g [Hg IN]]. apply in_map_iff in IN as [t' [ET _]]. injection ET as _ ET. specialize (HC g Hg).
      rewrite Forall_forall in OK. destruct (OK _ Hiv) as [_ [_ [EP _]]]. rewrite <- EP.
      apply (Nat.le_trans _ (length (fst g))); [apply Nat.eq_le_incl; symmetry; exact ET|exact HC]. }
    right. exists cs, ivs'. split; [exact E2|]. split; [auto|]. split; [auto|]. split; [auto|]. intros NO FT VT.
    destruct (T NO FT VT) as [T1 T2]. split; [|exact T2]. unfold truthful. cbn [fst snd]. rewrite map_map.
    rewrite X.
    - apply map_ext_in. intros g Hg. destruct (G1 g Hg) as [_ [A _]]. unfold g_inst. cbn [reduced fst reduced_claim cl_n]. now rewrite A.
    - apply concat_inj; [|now rewrite T1, FV]. rewrite LR, map_map. apply map_ext. intros g. unfold g_values. now rewrite map_length.
  Qed.

  Lemma reduced_regular gs : Forall (fun g : list F * inst F => inst_ok (snd g)) gs ->
    reduce_to_regular (map (fun g => fst (snd g)) gs) = Ok (map fst (map g_inst gs)).
  Proof.
    intros H. assert (R : reduce_to_regular (map fst (map snd gs)) = Ok (map reduced_claim (map fst (map snd gs))))
      by (apply reduce_to_regular_spec; now apply Forall_map).
    rewrite !map_map in R |- *. rewrite map_map in R. exact R.
  Qed.

  Lemma g_inst_ok gs : Forall (fun g : list F * inst F => inst_ok (snd g)) gs -> Forall inst_ok (map g_inst gs).
  Proof. intros H. apply Forall_map. eapply Forall_impl; [|exact H]. intros g Hg. now apply reduced_ok. Qed.

  Lemma g_total gs : Forall (fun g : list F * inst F => inst_ok (snd g)) gs -> comps_total F (map fst (map g_inst gs)).
  Proof.
    intros H. apply g_inst_ok in H. intros c cs q Hc Hcs. apply in_map_iff in Hc as [i [<- Hi]]. rewrite Forall_forall in H.
    destruct (H i Hi) as [_ HC]. destruct (HC cs Hcs) as [[C1 [C2 _]] _]. destruct (Nat.eq_dec (length q) (c_nv (fst cs))) as [E|NE].
    - destruct (C2 q E) as [v ->]. discriminate.
    - rewrite C1 by auto. discriminate.
  Qed.

  Lemma g_max_vars gs : Forall (fun g : list F * inst F => cl_n (fst (snd g)) = length (fst g)) gs ->
    max_vars (map g_inst gs) = fold_right Nat.max 0%nat (map (fun g => length (fst g)) gs).
  Proof.
    intros H. unfold max_vars. rewrite map_map. f_equal. apply map_ext_in. intros g Hg. rewrite Forall_forall in H. now apply H.
  Qed.

  Lemma fold_max_ge (l : list nat) x : In x l -> (x <= fold_right Nat.max 0 l)%nat.
  Proof. induction l as [|a l IH]; intros []; cbn [fold_right]; [subst; lia|]. specialize (IH H). lia. Qed.
  Lemma fold_max_le (l : list nat) n : (forall x, In x l -> x <= n)%nat -> (fold_right Nat.max 0 l <= n)%nat.
  Proof. induction l as [|a l IH]; intros H; cbn [fold_right]; [lia|]. pose proof (H a (or_introl eq_refl)). specialize (IH (fun x Hx => H x (or_intror Hx))). lia. Qed.

  Lemma claim_true_dec (i : inst F) : {claim_true i} + {~ claim_true i}.
  Proof.
    unfold claim_true. destruct (Forall_dec (fun cs : comp F * F => snd cs = true_sum (fst cs) (cl_n (fst i)) (snd i)) (fun cs => feq_dec F _ _) (cl_sums (fst i))) as [H|H].
    - left. now apply Forall_forall.
    - right. intros X. apply H. now apply Forall_forall.
  Qed.
  Lemma claims_hold_dec (ts : list (nat -> F)) cs : {Forall2 claim_holds ts cs} + {~ Forall2 claim_holds ts cs}.
  Proof.
    revert cs. induction ts as [|t ts IH]; intros [|c cs].
    - left. constructor.
    - right. intros H. inversion H.
    - right. intros H. inversion H.
    - destruct (feq_dec F (snd c) (mle t (fst c))) as [E|N].
      + destruct (IH cs) as [Y|N]; [left; constructor; auto|right; intros H; inversion H; contradiction].
      + right. intros H. inversion H. contradiction.
  Qed.

  Lemma vtabs_dec i l : {vtabs F i l = []} + {vtabs F i l <> []}.
  Proof. destruct (vtabs F i l); [now left|right; discriminate]. Qed.

  (** the sumcheck of one layer *)
  Lemma layer_sumcheck_sound o l ivs (gs : list (list F * inst F)) K N : grouped F l ivs gs -> (length ivs <= K)%nat -> (forall iv, In iv ivs -> xi_n (fst iv) <= N)%nat ->
    sound (fun out => ((forall iv, In iv ivs -> acting F l iv -> v_true F l iv) \/ ~ truthful o (map g_inst gs) out) /\
                      (forall g, In g gs -> (length (fst g) <= length (fst out))%nat) /\
                      map (@length F) (snd out) = map (fun g => S (length (snd (snd g)))) gs)
      (K + N * 5) (batch_verify o (map fst (map g_inst gs))).
  Proof.
    intros G LK HN. pose proof G as [G1 [G2 [_ [G4 G5]]]].
    assert (GI : Forall (fun g : list F * inst F => inst_ok (snd g)) gs) by (eapply Forall_impl; [|exact G1]; intros g H; apply H).
    assert (GN : Forall (fun g : list F * inst F => cl_n (fst (snd g)) = length (fst g)) gs) by (eapply Forall_impl; [|exact G1]; intros g H; apply H).
    apply sound_mono with (good := fun out => ((forall iv, In iv ivs -> acting F l iv -> v_true F l iv) \/ ~ truthful o (map g_inst gs) out) /\
       (length (fst out) = fold_right Nat.max 0%nat (map cl_n (map fst (map g_inst gs))) /\ map (@length F) (snd out) = map cl_m (map fst (map g_inst gs)))) (e := (K + N * 5)%nat); [|lia|].
    2:{ intros out [A [B C]]. split; [exact A|]. rewrite Forall_forall in GN. split.
        - intros g Hg. rewrite B. apply fold_max_ge. rewrite !map_map. apply in_map_iff. exists g. split; [exact (GN g Hg)|exact Hg].
        - rewrite C, !map_map. apply map_ext_in. intros g Hg. rewrite Forall_forall in GI. destruct (GI g Hg) as [L _].
        change (cl_m (fst (snd g)) + 1 = S (length (snd (snd g))))%nat. rewrite Nat.add_1_r. f_equal. symmetry. exact L. }
    apply sound_safe; [|apply batch_verify_shape; now apply g_total].
    destruct (Forall_dec claim_true claim_true_dec (map g_inst gs)) as [AT|NT].
    - apply sound_mono with (good := fun _ : list F * list (list F) => True) (e := 0%nat); [apply returns_sound, returns_true|lia|].
      intros out _. left. apply G4. intros g Hg. rewrite Forall_forall in AT, GI. apply reduced_true; [now apply GI|].
      apply AT. apply (in_map g_inst). exact Hg.
    - apply neg_Forall_Exists_neg in NT; [|apply claim_true_dec]. apply Exists_exists in NT as [i [Hi NT]].
      apply sound_mono with (good := fun out => ~ truthful o (map g_inst gs) out) (e := (n_composites (map g_inst gs) + max_vars (map g_inst gs) * max_degree (map g_inst gs))%nat).
      + destruct (is_sorted_ascending (rev (map cl_n (map fst (map g_inst gs))))) eqn:SO; [|unfold batch_verify; rewrite SO; constructor].
        apply batch_verify_sound; eauto.
        * rewrite map_map in SO. now apply sorted_desc.
        * now apply g_inst_ok.
        * destruct gs as [|g0 gs0] eqn:EG; [left; reflexivity|]. rewrite <- EG in *. right.
          assert (exists g, In g gs /\ length (fst g) = fold_right Nat.max 0%nat (map (fun g => length (fst g)) gs)) as [g [Hg EM]].
          { assert (NE : gs <> []) by (rewrite EG; discriminate). clear - NE. induction gs as [|g gs IH]; [contradiction|]. destruct gs as [|g' gs'].
            - exists g. cbn. split; [now left|lia].
            - destruct IH as [g1 [H1 E1]]; [discriminate|]. set (t := g' :: gs') in *. cbn [map fold_right].
              destruct (Nat.le_ge_cases (length (fst g)) (fold_right Nat.max 0%nat (map (fun g : list F * inst F => length (fst g)) t))).
              + exists g1. split; [now right|]. lia.
              + exists g. split; [now left|]. lia. }
          exists (g_inst g). split; [now apply (in_map g_inst)|]. split.
          -- rewrite g_max_vars, <- EM by auto. rewrite Forall_forall in GN. now apply GN.
          -- rewrite Forall_forall in G1. destruct (G1 g Hg) as [_ [_ [NE _]]]. unfold max_individual_degree, g_inst. cbn [reduced fst reduced_claim cl_sums].
             destruct (cl_sums (fst (snd g))) as [|cs l']; [contradiction|]. cbn [map fold_right fst extra_product c_deg]. lia.
      + assert (C1 : (n_composites (map g_inst gs) <= K)%nat).
        { etransitivity; [|exact LK]. etransitivity; [|exact G2]. unfold n_composites. rewrite !map_map. apply Nat.eq_le_incl. f_equal. apply map_ext. intros g.
          unfold g_inst. cbn [reduced fst reduced_claim cl_sums]. apply map_length. }
        assert (C2 : (max_vars (map g_inst gs) <= N)%nat).
        { rewrite g_max_vars by auto. apply fold_max_le. intros x Hx. apply in_map_iff in Hx as [g [<- Hg]]. destruct (G5 g Hg) as [iv [A ->]]. auto. }
        assert (C3 : (max_degree (map g_inst gs) <= 5)%nat).
        { unfold max_degree. rewrite map_map. apply fold_max_le. intros x Hx. apply in_map_iff in Hx as [g [<- Hg]]. unfold max_individual_degree, g_inst.
          cbn [reduced fst reduced_claim cl_sums]. rewrite map_map. apply fold_max_le. intros x Hx. apply in_map_iff in Hx as [cs [<- Hcs]].
          rewrite Forall_forall in G1. destruct (G1 g Hg) as [_ [_ [_ D]]]. cbn [fst extra_product c_deg]. specialize (D cs Hcs). lia. }
        apply Nat.add_le_mono; auto. apply Nat.mul_le_mono; auto.
      + intros out H. now right.
  Qed.

  Lemma alive_next l (is : list exp_inst) : filter (fun i => negb (xi_w i =? l + 1)%nat) (alive l is) = alive (S l) is.
  Proof.
    unfold alive. induction is as [|i is IH]; [reflexivity|]. cbn [filter].
    destruct (Nat.ltb_spec l (xi_w i)), (Nat.ltb_spec (S l) (xi_w i)); cbn [filter]; try lia; rewrite ?IH; destruct (Nat.eqb_spec (xi_w i) (l + 1)); cbn [negb]; try lia; auto.
  Qed.
  Lemma map_filter_fst {A B} (f : A -> bool) (l : list (A * B)) : map fst (filter (fun x => f (fst x)) l) = filter f (map fst l).
  Proof. induction l as [|[a b] l IH]; [reflexivity|]. cbn [filter map fst]. destruct (f a); cbn [map fst]; now rewrite IH. Qed.

  Lemma filter_len {A} (f : A -> bool) l : (length (filter f l) <= length l)%nat.
  Proof. induction l as [|a l IH]; cbn [filter length]; [lia|]. destruct (f a); cbn [length]; lia. Qed.

  Theorem exp_layers_sound o (is : list exp_inst) K N : Forall (base_not_one F) is -> (length is <= K)%nat -> (forall i, In i is -> xi_n i <= N)%nat ->
    forall todo l ivs, map fst ivs = alive l is -> Forall (v_ok F l) ivs -> (forall i, In i is -> xi_w i <= l + todo)%nat ->
    (exists iv, In iv ivs /\ ~ v_true F l iv) ->
    sound (fun layers => ~ Forall2 (layer_true is) (seq l todo) layers) (todo * (K + N * 5)) (exp_layers o todo l (map snd ivs)).
  Proof.
    intros NO LK LN. induction todo as [|todo IH]; intros l ivs HI OK HW [iv0 [H0 BAD]].
    - exfalso. rewrite Forall_forall in OK. specialize (OK iv0 H0). destruct iv0 as [i v]. destruct OK as [_ [L _]].
      assert (In i is) by (assert (X : In i (map fst ivs)) by (now apply (in_map fst) in H0); rewrite HI in X; now apply filter_In in X). specialize (HW i H). lia.
    - cbn [exp_layers]. destruct (layer_claims_ok F l ivs) as [gs [extra [EC G]]]; auto; [intros ->; destruct H0|].
      rewrite EC. cbn [vbind fst snd].
      assert (GI : Forall (fun g : list F * inst F => inst_ok (snd g)) gs) by (eapply Forall_impl; [|exact (proj1 G)]; intros g H; apply H).
      rewrite reduced_regular by auto. cbn [vbind].
      assert (SUB : forall iv, In iv ivs -> In (fst iv) is) by (intros iv Hiv; apply (in_map fst) in Hiv; rewrite HI in Hiv; now apply filter_In in Hiv).
      replace (S todo * (K + N * 5))%nat with (K + N * 5 + todo * (K + N * 5))%nat by lia.
      eapply sound_bind; [apply (layer_sumcheck_sound o l ivs gs K N); auto|].
      { assert (L : length ivs = length (alive l is)) by (rewrite <- HI; now rewrite map_length). rewrite L. unfold alive.
        etransitivity; [apply filter_len|exact LK]. }
      intros out [T [SH1 SH2]].
      destruct (layer_out_ok o l ivs gs extra out OK G SH1 SH2) as [E|[cs [ivs' [E [M [V [S Tr]]]]]]]; unfold inst in *; rewrite E; [constructor|]. cbn [vbind fst snd].
      rewrite retain_ok by (intros iv Hiv; destruct (V iv Hiv) as [A [B _]]; auto). cbn [vbind].
      set (next := filter (fun iv : exp_inst * exp_claim => negb (xi_w (fst iv) =? l + 1)%nat) ivs').
      assert (MN : map fst next = alive (Datatypes.S l) is).
      { unfold next. rewrite (map_filter_fst (fun i => negb (xi_w i =? l + 1)%nat)), M, HI. apply alive_next. }
      assert (NOV : Forall (base_not_one F) (map fst ivs)) by (rewrite HI; apply Forall_forall; intros i Hi; apply filter_In in Hi; rewrite Forall_forall in NO; now apply NO).
      destruct (claims_hold_dec (flat_map (fun i => out_tabs i l) (map fst ivs)) cs) as [Y|NY].
      + assert (NB : exists iv, In iv next /\ ~ v_true F (Datatypes.S l) iv).
        { destruct (Forall_dec (v_true F (Datatypes.S l)) (fun iv => feq_dec F _ _) next) as [A|A].
          - exfalso. rewrite Forall_forall in A. destruct (Tr NOV Y) as [T1 T2].
            { intros iv Hiv W. apply A. unfold next. apply filter_In. split; auto. destruct (Nat.eqb_spec (xi_w (fst iv)) (l + 1)); [contradiction|reflexivity]. }
            destruct T as [T|T]; [|contradiction]. apply BAD. destruct (vtabs_dec (fst iv0) l) as [Z|Z]; [apply T2; auto; intros X; now apply X|now apply T].
          - apply neg_Forall_Exists_neg in A; [|intros iv; apply feq_dec]. apply Exists_exists in A as [iv [A B]]. eauto. }
        rewrite <- (Nat.add_0_r (todo * _)). eapply sound_bind; [apply (IH (Datatypes.S l) next)|]; auto.
        * unfold next. apply Forall_forall. intros iv Hiv. apply filter_In in Hiv as [Hiv W]. destruct (V iv Hiv) as [_ [_ X]]. apply X.
          destruct (Nat.eqb_spec (xi_w (fst iv)) (l + 1)); [discriminate|auto].
        * intros i Hi. specialize (HW i Hi). lia.
        * intros rest HR. constructor. cbn [seq]. intros X. inversion X; subst. contradiction.
      + apply returns_sound. eapply returns_bind; [apply returns_true|]. intros rest _. cbn [returns seq]. intros X. inversion X as [|? ? ? ? X1 X2]; subst.
        apply NY. unfold layer_true in X1. now rewrite HI.
  Qed.

  Definition exp_shape (is : list exp_inst) (l : nat) (cs : list (list F * F)) : Prop := layer_shape F l (alive l is) cs.

  Lemma exp_layers_safe o (is : list exp_inst) : forall todo l ivs, map fst ivs = alive l is -> Forall (v_ok F l) ivs ->
    (todo = 0 \/ exists i, In i is /\ xi_w i = l + todo)%nat ->
    safe (fun layers => Forall2 (exp_shape is) (seq l todo) layers) (exp_layers o todo l (map snd ivs)).
  Proof.
    induction todo as [|todo IH]; intros l ivs HI OK HW.
    - cbn [exp_layers safe seq]. constructor.
    - cbn [exp_layers]. destruct HW as [|[im [Him WM]]]; [discriminate|].
      assert (NE : ivs <> []).
      { intros ->. cbn in HI. assert (In im (alive l is)) by (apply filter_In; split; auto; apply Nat.ltb_lt; lia). rewrite <- HI in H. destruct H. }
      destruct (layer_claims_ok F l ivs NE OK) as [gs [extra [EC G]]]. rewrite EC. cbn [vbind fst snd].
      assert (GI : Forall (fun g : list F * inst F => inst_ok (snd g)) gs) by (eapply Forall_impl; [|exact (proj1 G)]; intros g H; apply H).
      assert (GN : Forall (fun g : list F * inst F => cl_n (fst (snd g)) = length (fst g)) gs) by (eapply Forall_impl; [|exact (proj1 G)]; intros g H; apply H).
      rewrite reduced_regular by auto. cbn [vbind]. eapply safe_bind; [apply batch_verify_shape; now apply g_total|].
      intros out [B C]. rewrite Forall_forall in GN, GI.
      destruct (layer_out_ok o l ivs gs extra out OK G) as [E|[cs [ivs' [E [M [V [S Tr]]]]]]].
      + intros g Hg. rewrite B. apply fold_max_ge. rewrite !map_map. apply in_map_iff. exists g. split; [exact (GN g Hg)|exact Hg].
      + rewrite C, !map_map. apply map_ext_in. intros g Hg. destruct (GI g Hg) as [L _].
        change (cl_m (fst (snd g)) + 1 = S (length (snd (snd g))))%nat. rewrite Nat.add_1_r. f_equal. symmetry. exact L.
      + unfold inst in *. rewrite E. exact Logic.I.
      + unfold inst in *. rewrite E. cbn [vbind fst snd].
        rewrite retain_ok by (intros iv Hiv; destruct (V iv Hiv) as [A [B' _]]; auto). cbn [vbind].
        eapply safe_bind; [apply (IH (Datatypes.S l))|].
        * rewrite (map_filter_fst (fun i => negb (xi_w i =? l + 1)%nat)), M, HI. apply alive_next.
        * apply Forall_forall. intros iv Hiv. apply filter_In in Hiv as [Hiv W]. destruct (V iv Hiv) as [_ [_ X]]. apply X.
          destruct (Nat.eqb_spec (xi_w (fst iv)) (l + 1)); [discriminate|auto].
        * destruct todo; [now left|]. right. exists im. split; auto. lia.
        * intros rest HR. cbn [safe seq]. constructor; auto. unfold exp_shape. now rewrite <- HI.
  Qed.

  (* ---------------------------------------------------------------- *)
  (** A claim that belongs to an instance: the width is the number of bits and the point has a coordinate for every
      variable; the powers [base^(2^k)] of a fixed base are computed with 64-bit exponents. *)
  Definition belongs (ic : exp_inst * exp_claim) : Prop :=
    let '(i, c) := ic in
    ex_width c = xi_w i /\ (1 <= xi_w i)%nat /\ length (ex_point c) = xi_n i /\
    match xi_base i, ex_base c with
    | inl g, Some g' => g' = g /\ (xi_w i <= 64)%nat
    | inr _, None => True
    | _, _ => False
    end.
  (** the claimed value is the value at the point of the column of powers *)
  Definition exp_claim_true (ic : exp_inst * exp_claim) : Prop := ex_eval (snd ic) = mle (power_table (fst ic)) (ex_point (snd ic)).

  Lemma belongs_v_ok ic : belongs ic -> v_ok F 0 ic.
  Proof.
    destruct ic as [i c]. intros [A [B [C D]]]. unfold v_ok, base_match. split; [auto|]. split; [lia|]. split; [auto|].
    destruct (xi_base i), (ex_base c); try contradiction; tauto.
  Qed.
  Lemma alive_0 (is : list exp_inst) : (forall i, In i is -> (1 <= xi_w i)%nat) -> alive 0 is = is.
  Proof.
    intros H. unfold alive. induction is as [|i is IH]; [reflexivity|]. cbn [filter]. pose proof (H i (or_introl eq_refl)).
    destruct (Nat.ltb_spec 0 (xi_w i)); [|lia]. now rewrite IH by (intros; apply H; now right).
  Qed.
  Lemma v_true_0 ic : v_true F 0 ic <-> exp_claim_true ic.
  Proof. unfold v_true, exp_claim_true. rewrite (mle_ext F _ (power_table (fst ic))) by (intros; apply layer_table_0). reflexivity. Qed.
  Lemma belongs_w ics : Forall belongs ics -> forall i, In i (map fst ics) -> (1 <= xi_w i)%nat.
  Proof. intros H i Hi. apply in_map_iff in Hi as [[i' c] [<- Hi]]. rewrite Forall_forall in H. destruct (H _ Hi) as [_ [A _]]. exact A. Qed.
  Lemma belongs_widths ics : Forall belongs ics -> map ex_width (map snd ics) = map xi_w (map fst ics).
  Proof. intros H. rewrite !map_map. apply map_ext_in. intros [i c] Hi. rewrite Forall_forall in H. destruct (H _ Hi) as [A _]. exact A. Qed.

  Lemma exp_verify_sound o (ics : list (exp_inst * exp_claim)) : Forall belongs ics -> Forall (base_not_one F) (map fst ics) ->
    (exists ic, In ic ics /\ ~ exp_claim_true ic) ->
    sound (fun layers => ~ layers_true (map fst ics) layers)
      (max_width (map fst ics) * (length ics + max_exp_vars (map fst ics) * 5)) (exp_verify o (map snd ics)).
  Proof.
    intros HB NO [ic [Hic BAD]]. unfold exp_verify. destruct ics as [|ic0 ics0] eqn:EI; [destruct Hic|]. rewrite <- EI in *.
    replace (map snd ics) with (snd ic0 :: map snd ics0) at 1 by (rewrite EI; reflexivity). cbn beta iota.
    destruct (negb _); [constructor|]. unfold layers_true. rewrite (belongs_widths ics HB). fold (max_width (map fst ics)).
    apply exp_layers_sound; auto.
    - now rewrite map_length.
    - intros i Hi. unfold max_exp_vars. apply fold_max_ge. now apply in_map.
    - symmetry. apply alive_0. now apply belongs_w.
    - eapply Forall_impl; [|exact HB]. apply belongs_v_ok.
    - intros i Hi. cbn [Nat.add]. unfold max_width. apply fold_max_ge. now apply in_map.
    - exists ic. split; auto. intros T. now apply BAD, v_true_0.
  Qed.

  (** Soundness of the exponentiation reduction.  If one of the claims is false then, whatever the prover sends, at most a
      fraction (max width) * (#claims + 5 * max #variables) / |S| of the challenge vectors make the verifier accept claims
      about the bit and base columns that are all true. *)
  Theorem exp_soundness o (ics : list (exp_inst * exp_claim)) : Forall belongs ics -> Forall (base_not_one F) (map fst ics) ->
    (exists ic, In ic ics /\ ~ exp_claim_true ic) ->
    forall (strategy : list F -> nat -> list F) (S : list F) (k : nat) (L : list (list F)),
      NoDup S -> NoDup L ->
      (forall cs, In cs L -> length cs = k /\ incl cs S /\
         exists layers, vplay (exp_verify o (map snd ics)) strategy [] 0 cs = Ok layers /\ layers_true (map fst ics) layers) ->
      (length L * length S <= max_width (map fst ics) * (length ics + max_exp_vars (map fst ics) * 5) * length S ^ k)%nat.
  Proof. intros HB NO BAD. apply of_sound. now apply exp_verify_sound. Qed.

  Lemma exp_verify_safe o (ics : list (exp_inst * exp_claim)) : Forall belongs ics ->
    safe (fun layers => Forall2 (exp_shape (map fst ics)) (seq 0 (max_width (map fst ics))) layers) (exp_verify o (map snd ics)).
  Proof.
    intros HB. unfold exp_verify. destruct ics as [|ic0 ics0] eqn:EI; [cbn; constructor|]. rewrite <- EI in *.
    replace (map snd ics) with (snd ic0 :: map snd ics0) at 1 by (rewrite EI; reflexivity). cbn beta iota.
    destruct (negb _); [exact Logic.I|]. rewrite (belongs_widths ics HB). fold (max_width (map fst ics)).
    apply exp_layers_safe.
    - symmetry. apply alive_0. now apply belongs_w.
    - eapply Forall_impl; [|exact HB]. apply belongs_v_ok.
    - right. cbn [Nat.add]. assert (NE : map fst ics <> []) by (rewrite EI; discriminate). clear - NE. unfold max_width.
      induction (map fst ics) as [|i l IH]; [contradiction|]. cbn [map fold_right]. destruct l as [|i' l'].
      + exists i. split; [now left|]. cbn. lia.
      + destruct IH as [j [Hj Ej]]; [discriminate|]. set (t := i' :: l') in *. destruct (Nat.le_ge_cases (xi_w i) (fold_right Nat.max 0%nat (map xi_w t))).
        * exists j. split; [now right|]. lia.
        * exists i. split; [now left|]. lia.
  Qed.

  (** It never panics, and an accepted run yields for every layer one claim for each column of the layer, at a point
      with the number of variables of the column. *)
  Theorem exp_never_panics o (ics : list (exp_inst * exp_claim)) : Forall belongs ics ->
    forall tape cs, vrun (exp_verify o (map snd ics)) tape cs <> Panic.
  Proof. intros HB. eapply safe_vrun. now apply exp_verify_safe. Qed.

  Lemma safe_result {A} (Q : A -> Prop) (p : vproto F A) : safe Q p -> forall tape cs a t r, vrun p tape cs = Ok (a, t, r) -> Q a.
  Proof.
    induction p as [[a| |]|n k IH|k IH]; cbn [safe vrun rbind]; intros H tape cs b t r E; try discriminate.
    - now injection E as <- <- <-.
    - destruct (Nat.ltb_spec (length tape) n); [discriminate|]. refine (IH (firstn n tape) (H _ _) _ _ _ _ _ E). rewrite firstn_length. lia.
    - destruct cs; [discriminate|]. eapply IH; eauto.
  Qed.

  Theorem exp_output_shape o (ics : list (exp_inst * exp_claim)) : Forall belongs ics ->
    forall tape cs layers t r, vrun (exp_verify o (map snd ics)) tape cs = Ok (layers, t, r) ->
      length layers = max_width (map fst ics) /\
      forall l claims, nth_error layers l = Some claims ->
        map (fun c => length (fst c)) claims = flat_map (fun i => map (fun _ => xi_n i) (out_tabs i l)) (alive l (map fst ics)).
  Proof.
    intros HB tape cs layers t r E. pose proof (safe_result _ _ (exp_verify_safe o ics HB) _ _ _ _ _ E) as H.
    split; [apply forall2_len in H; now rewrite seq_length in H|]. intros l claims Hl.
    assert (G : forall b a (ls : list (list (list F * F))), Forall2 (exp_shape (map fst ics)) (seq a b) ls -> forall l c, nth_error ls l = Some c -> exp_shape (map fst ics) (a + l) c).
    { clear. induction b as [|b IH]; intros a ls H l c Hl; inversion H; subst; [destruct l; discriminate|]. destruct l as [|l]; cbn [nth_error] in Hl.
      - injection Hl as <-. now rewrite Nat.add_0_r.
      - rewrite <- Nat.add_succ_comm. eapply IH; eauto. }
    specialize (G _ _ _ H l claims Hl). cbn [Nat.add] in G. unfold exp_shape, layer_shape in G. clear - G. induction G; [reflexivity|]. cbn [map]. now f_equal.
  Qed.

  (* ---------------------------------------------------------------- *)
  (** Exponentiations of columns.  [tab id] is the column of an oracle, [nv id] its number of variables. *)
  Section Oracles.
    Variables (nv : nat -> nat) (tab : nat -> nat -> F).

    (** the exponent has the bits found in the bit columns *)
    Definition spec_inst (e : exp_spec F) : exp_inst :=
      mkXi (nv (last (xp_bits e) 0%nat)) (length (xp_bits e)) (fun k x => feqb (tab (nth k (xp_bits e) 0%nat) x) 1)
        (match xp_base e with BaseConst g => inl g | BaseOracle id => inr (tab id) end).
    (** bit columns hold bits; a fixed base is not one and has at most 64 exponent bits *)
    Definition spec_ok (e : exp_spec F) : Prop :=
      xp_bits e <> [] /\ (forall id x, In id (xp_bits e) -> tab id x = 0 \/ tab id x = 1) /\
      match xp_base e with BaseConst g => g <> 1 /\ (length (xp_bits e) <= 64)%nat | BaseOracle _ => True end.

    Lemma bit_table_oracle e k : spec_ok e -> (k < length (xp_bits e))%nat -> forall x, bit_table (spec_inst e) k x = tab (nth k (xp_bits e) 0%nat) x.
    Proof.
      intros [_ [H _]] L x. unfold bit_table, spec_inst. cbn [xi_bit]. destruct (feqb_spec F (tab (nth k (xp_bits e) 0%nat) x) 1) as [E|N]; [now rewrite E|].
      destruct (H (nth k (xp_bits e) 0%nat) x) as [E|E]; [now apply nth_In|now rewrite E|contradiction].
    Qed.
    Lemma bit_claim_oracle e k id p v : spec_ok e -> nth_error (xp_bits e) k = Some id -> eval_claim_holds tab (id, p, v) -> claim_holds (bit_table (spec_inst e) k) (p, v).
    Proof.
      intros OK H E. unfold claim_holds. cbn [fst snd eval_claim_holds] in *. rewrite E. apply mle_ext. intros x _.
      assert (L : (k < length (xp_bits e))%nat) by (apply nth_error_Some; congruence). rewrite bit_table_oracle by auto. f_equal. symmetry. now apply nth_error_nth.
    Qed.

    Definition dyn (e : exp_spec F) : option nat := match xp_base e with BaseConst _ => None | BaseOracle id => Some id end.

    Lemma layer_eval_claims_ok l : forall es rclaims ecs, Forall spec_ok es ->
      layer_eval_claims l (map (fun e => (dyn e, xp_bits e)) es) rclaims = Ok ecs -> Forall (eval_claim_holds tab) ecs ->
      length rclaims = length (flat_map (fun e => out_tabs (spec_inst e) l) (filter (fun e => l <? length (xp_bits e))%nat es)) ->
      Forall2 claim_holds (flat_map (fun e => rev (out_tabs (spec_inst e) l)) (filter (fun e => l <? length (xp_bits e))%nat es)) rclaims.
    Proof.
      induction es as [|e es IH]; intros rclaims ecs OK E T L.
      - destruct rclaims; [constructor|discriminate].
      - apply Forall_cons_iff in OK as [OKe OK]. cbn [map layer_eval_claims] in E. cbn [filter] in *.
        destruct (Nat.eqb_spec (length (xp_bits e)) 0) as [Z|NZ]; [discriminate|].
        destruct (Nat.ltb_spec (length (xp_bits e) - 1) l) as [S|S], (Nat.ltb_spec l (length (xp_bits e))) as [A|A]; try lia; [eapply IH; eauto|].
        destruct rclaims as [|[p v] rc]; [discriminate|]. cbn [flat_map] in *. rewrite app_length in L. unfold out_tabs in L |- *. unfold dyn in E. cbn [spec_inst xi_base] in *.
        destruct (xp_base e) as [g|bid] eqn:EB.
        + destruct (nth_error (xp_bits e) (length (xp_bits e) - 1 - l)) as [id|] eqn:EN; cbn [of_opt rbind] in E; [|discriminate].
          destruct (layer_eval_claims l _ rc) as [r| |] eqn:ER; cbn [rbind] in E; [|discriminate|discriminate]. injection E as <-.
          apply Forall_cons_iff in T as [T1 T2]. cbn [rev app]. constructor.
          * unfold spec_inst at 2. cbn [xi_w]. eapply bit_claim_oracle; eauto.
          * eapply IH; eauto; exact (eq_add_S _ _ L).
        + destruct rc as [|[p' v'] rc]; [discriminate|].
          destruct (nth_error (xp_bits e) l) as [id|] eqn:EN; cbn [of_opt rbind] in E; [|discriminate].
          destruct (layer_eval_claims l _ rc) as [r| |] eqn:ER; cbn [rbind] in E; [|discriminate|discriminate]. injection E as <-.
          apply Forall_cons_iff in T as [T1 T2]. apply Forall_cons_iff in T2 as [T2 T3]. cbn [rev app]. constructor; [exact T2|]. constructor.
          * eapply bit_claim_oracle; eauto.
          * eapply IH; eauto; exact (eq_add_S _ _ (eq_add_S _ _ L)).
    Qed.

    Lemma collect_forall2 {A B} (f : A -> res B) l ys : collect_res (map f l) = Ok ys -> Forall2 (fun x y => f x = Ok y) l ys.
    Proof.
      revert ys. induction l as [|a l IH]; intros ys H; cbn [map collect_res] in H; [injection H as <-; constructor|].
      destruct (f a) as [y| |] eqn:E; cbn [rbind] in H; try discriminate. destruct (collect_res (map f l)) as [t| |]; cbn [rbind] in H; try discriminate.
      injection H as <-. constructor; auto.
    Qed.
    Lemma filter_map {A B} (f : A -> B) (p : B -> bool) l : filter p (map f l) = map f (filter (fun x => p (f x)) l).
    Proof. induction l as [|a l IH]; [reflexivity|]. cbn [map filter]. destruct (p (f a)); cbn [map]; now rewrite IH. Qed.
    Lemma filter_rev' {A} (p : A -> bool) l : filter p (rev l) = rev (filter p l).
    Proof. induction l as [|a l IH]; [reflexivity|]. cbn [rev filter]. rewrite filter_app, IH. cbn [filter]. destruct (p a); cbn [rev]; [reflexivity|apply app_nil_r]. Qed.
    Lemma flat_map_rev {A B} (f : A -> list B) l : flat_map (fun x => rev (f x)) (rev l) = rev (flat_map f l).
    Proof. induction l as [|a l IH]; [reflexivity|]. cbn [rev flat_map]. rewrite flat_map_app, IH. cbn [flat_map]. now rewrite app_nil_r, rev_app_distr. Qed.
    Lemma combine_map2 {A B C} (f : A -> B) (g : A -> C) l : combine (map f l) (map g l) = map (fun x => (f x, g x)) l.
    Proof. induction l as [|a l IH]; [reflexivity|]. cbn [map combine]. now rewrite IH. Qed.

    Lemma exp_eval_claims_true es layers ecs : Forall spec_ok es ->
      Forall2 (exp_shape (map spec_inst es)) (seq 0 (max_width (map spec_inst es))) layers ->
      exp_eval_claims es layers = Ok ecs -> Forall (eval_claim_holds tab) ecs -> layers_true (map spec_inst es) layers.
    Proof.
      intros OK SH E T. unfold exp_eval_claims, exp_make_eval_claims in E.
      assert (MW : fold_right Nat.max 0%nat (map (@length nat) (map xp_bits es)) = max_width (map spec_inst es)) by (unfold max_width; rewrite !map_map; reflexivity).
      rewrite MW in E. clear MW. unfold layers_true.
      change (map (fun e : exp_spec F => match xp_base e with BaseConst _ => None | BaseOracle id => Some id end) es) with (map dyn es) in E.
      rewrite (combine_map2 dyn xp_bits) in E.
      destruct (collect_res _) as [ls| |] eqn:EC in E; cbn [rbind] in E; [|discriminate|discriminate]. injection E as <-.
      apply collect_forall2 in EC.
      assert (G : forall a b ls' lay pre, Forall2 (exp_shape (map spec_inst es)) (seq a b) lay -> length pre = a ->
        Forall2 (fun l y => (try claims <- of_opt (nth_error (pre ++ lay) l); layer_eval_claims l (rev (map (fun e => (dyn e, xp_bits e)) es)) (rev claims)) = Ok y) (seq a b) ls' ->
        Forall (eval_claim_holds tab) (concat ls') -> Forall2 (layer_true (map spec_inst es)) (seq a b) lay).
      { intros a b. revert a. induction b as [|b IH]; intros a ls' lay pre HS LP HE HT; inversion HS as [|? cs ? lay' S1 S2]; subst; [constructor|].
        inversion HE as [|? y ? ls2 E1 E2]; subst. cbn [concat] in HT. apply Forall_app in HT as [T1 T2]. cbn [seq]. constructor.
        - rewrite nth_error_app2, Nat.sub_diag in E1 by lia. cbn [nth_error of_opt rbind] in E1. rewrite <- map_rev in E1.
          unfold layer_true, alive. rewrite filter_map, flat_map_concat_map, map_map, <- flat_map_concat_map.
          apply (layer_eval_claims_ok (length pre) (rev es) (rev cs) y) in E1; auto.
          + cbn [spec_inst xi_w]. rewrite filter_rev', flat_map_rev in E1. apply forall2_rev in E1. rewrite !rev_involutive in E1. exact E1.
          + apply Forall_rev; auto.
          + rewrite rev_length. rewrite filter_rev'. unfold exp_shape, layer_shape, alive in S1. apply forall2_len in S1. rewrite <- S1, filter_map.
            cbn [spec_inst xi_w]. clear. set (l := length pre). generalize (filter (fun e : exp_spec F => l <? length (xp_bits e))%nat es). clear. intros es.
            transitivity (length (flat_map (fun e => out_tabs (spec_inst e) l) es)).
            * induction es as [|e es IH]; [reflexivity|]. cbn [map flat_map]. rewrite !app_length, map_length. now rewrite IH.
            * induction es as [|e es IH]; [reflexivity|]. cbn [rev]. rewrite flat_map_app. cbn [flat_map]. rewrite !app_length, <- IH. cbn [length]. lia.
        - apply (IH (S (length pre)) ls2 lay' (pre ++ [cs])); auto.
          + rewrite app_length. cbn. lia.
          + rewrite <- app_assoc. exact E2. }
      eapply (G 0%nat _ ls layers []); eauto.
    Qed.

    Lemma make_claims_belongs : forall es (point evals : list F) claims, Forall spec_ok es -> length evals = length es ->
      exp_make_claims nv es point evals = Ok claims ->
      exists ics, map fst ics = map spec_inst es /\ map snd ics = claims /\ Forall belongs ics /\
        forall k e v, nth_error es k = Some e -> nth_error evals k = Some v ->
          exists c, nth_error ics k = Some (spec_inst e, c) /\ ex_eval c = v /\ ex_point c = firstn (nv (last (xp_bits e) 0%nat)) point.
    Proof.
      intros es point evals claims OK LE H. unfold exp_make_claims, construct_exp_claims in H. destruct (existsb _ _); [discriminate|].
      apply collect_forall2 in H. revert evals claims LE H. induction OK as [|e es OKe OK IH]; intros [|v evals] claims LE H; try discriminate LE.
      - inversion H; subst. exists []. repeat split; auto. intros [|k]; discriminate.
      - cbn [map zip3] in H. inversion H as [|? c ? claims' E1 E2]; subst. injection LE as LE. destruct (IH evals claims' LE E2) as [ics [I1 [I2 [I3 I4]]]].
        set (n := nv (last (xp_bits e) 0%nat)) in *. destruct (Nat.ltb_spec (length point) n) as [|LP]; [discriminate|]. injection E1 as <-.
        eexists ((spec_inst e, _) :: ics). cbn [map fst snd]. rewrite I1, I2. split; [reflexivity|]. split; [reflexivity|]. split.
        + constructor; auto. unfold belongs, spec_inst. cbn [ex_width ex_point ex_base xi_w xi_n xi_base]. split; [reflexivity|]. destruct OKe as [B1 [B2 B3]].
          split; [destruct (xp_bits e); [contradiction|cbn; lia]|]. split; [rewrite firstn_length; fold n; lia|]. destruct (xp_base e); tauto.
        + intros [|k] e' v' He Hv; cbn [nth_error] in *; [|eauto]. injection He as <-. injection Hv as <-. eauto.
    Qed.

    Lemma exp_oracle_sound o es (point evals : list F) claims : Forall spec_ok es -> length evals = length es ->
      exp_make_claims nv es point evals = Ok claims ->
      (exists k e v, nth_error es k = Some e /\ nth_error evals k = Some v /\
         v <> mle (power_table (spec_inst e)) (firstn (nv (last (xp_bits e) 0%nat)) point)) ->
      sound (fun ecs => ~ Forall (eval_claim_holds tab) ecs)
        (max_width (map spec_inst es) * (length es + max_exp_vars (map spec_inst es) * 5))
        (get layers <- exp_verify o claims; VRet (exp_eval_claims es layers)).
    Proof.
      intros OK LE EC [k [e [v [He [Hv BAD]]]]]. destruct (make_claims_belongs es point evals claims OK LE EC) as [ics [I1 [<- [I3 I4]]]].
      destruct (I4 k e v He Hv) as [c [Hc [Ev Ep]]].
      assert (LI : length ics = length es) by (rewrite <- (map_length fst), I1; apply map_length).
      rewrite <- I1, <- LI. rewrite <- (Nat.add_0_r (max_width _ * _)).
      apply sound_bind with (good1 := fun layers => ~ layers_true (map fst ics) layers /\ Forall2 (exp_shape (map fst ics)) (seq 0 (max_width (map fst ics))) layers).
      - apply sound_safe; [|now apply exp_verify_safe]. apply exp_verify_sound; auto.
        + rewrite I1. apply Forall_map. eapply Forall_impl; [|exact OK]. intros e' [_ [_ H]]. unfold base_not_one, spec_inst. cbn [xi_base]. destruct (xp_base e'); tauto.
        + exists (spec_inst e, c). split; [now apply nth_error_In in Hc|]. unfold exp_claim_true. cbn [fst snd]. now rewrite Ev, Ep.
      - intros layers [NT SH]. destruct (exp_eval_claims es layers) as [ecs| |] eqn:EE; constructor. intros T. apply NT. rewrite I1 in *.
        now apply (exp_eval_claims_true es layers ecs).
    Qed.

    (** Soundness in terms of columns: if the claimed value of one exponentiation is not the value at the challenge point
        of the column [base(x) ^ (sum_k 2^k bit_k(x))], then few challenge vectors make the verifier accept evaluation
        claims on the bit and base columns that are all true. *)
    Theorem exp_oracle_soundness o es (point evals : list F) claims : Forall spec_ok es -> length evals = length es ->
      exp_make_claims nv es point evals = Ok claims ->
      (exists k e v, nth_error es k = Some e /\ nth_error evals k = Some v /\
         v <> mle (power_table (spec_inst e)) (firstn (nv (last (xp_bits e) 0%nat)) point)) ->
      forall (strategy : list F -> nat -> list F) (S : list F) (k : nat) (L : list (list F)),
        NoDup S -> NoDup L ->
        (forall cs, In cs L -> length cs = k /\ incl cs S /\
           exists ecs, vplay (get layers <- exp_verify o claims; VRet (exp_eval_claims es layers)) strategy [] 0 cs = Ok ecs /\
             Forall (eval_claim_holds tab) ecs) ->
        (length L * length S <= max_width (map spec_inst es) * (length es + max_exp_vars (map spec_inst es) * 5) * length S ^ k)%nat.
    Proof. intros OK LE EC BAD. apply of_sound. eapply exp_oracle_sound; eauto. Qed.
  End Oracles.

  (* ---------------------------------------------------------------- *)
  (** The evaluation claims that the exponentiation phase of the constraint system verifier returns are about bit and
      base columns only. *)
  Definition operand (es : list (exp_spec F)) (id : nat) : Prop :=
    exists e, In e es /\ (In id (xp_bits e) \/ xp_base e = BaseOracle id).

  Lemma layer_eval_claims_ids l : forall rexps rclaims (ecs : list (nat * list F * F)), layer_eval_claims l rexps rclaims = Ok ecs ->
    forall c, In c ecs -> exists b m, In (b, m) rexps /\ (In (fst (fst c)) m \/ b = Some (fst (fst c))).
  Proof.
    induction rexps as [|[b m] rexps IH]; intros rclaims ecs E c Hc; cbn [layer_eval_claims] in E; [injection E as <-; destruct Hc|].
    assert (TL : forall rc r, layer_eval_claims l rexps rc = Ok r -> In c r -> exists b' m', In (b', m') ((b, m) :: rexps) /\ (In (fst (fst c)) m' \/ b' = Some (fst (fst c)))).
    { intros rc r Er Hr. destruct (IH rc r Er c Hr) as [b' [m' [A B]]]. exists b', m'. split; auto. now right. }
    destruct (_ =? _)%nat; [discriminate|]. destruct (_ <? _)%nat; [eauto|]. destruct rclaims as [|[p v] rc]; [discriminate|]. destruct b as [bid|].
    - destruct rc as [|[p' v'] rc]; [discriminate|]. destruct (nth_error m l) as [id|] eqn:EN; cbn [of_opt rbind] in E; [|discriminate].
      destruct (layer_eval_claims l rexps rc) as [r| |] eqn:ER; cbn [rbind] in E; try discriminate. injection E as <-.
      destruct Hc as [<-|[<-|Hc]]; [| |eauto]; exists (Some bid), m; (split; [now left|]); cbn [fst]; [left; now apply nth_error_In in EN|now right].
    - destruct (nth_error m _) as [id|] eqn:EN; cbn [of_opt rbind] in E; [|discriminate].
      destruct (layer_eval_claims l rexps rc) as [r| |] eqn:ER; cbn [rbind] in E; try discriminate. injection E as <-.
      destruct Hc as [<-|Hc]; [|eauto]. exists None, m. split; [now left|]. cbn [fst]. left. now apply nth_error_In in EN.
  Qed.

  Lemma exp_eval_claims_ids es layers ecs : exp_eval_claims es layers = Ok ecs -> forall c, In c ecs -> operand es (fst (fst c)).
  Proof.
    intros E c Hc. unfold exp_eval_claims, exp_make_eval_claims in E. destruct (collect_res _) as [ls| |] eqn:EC in E; cbn [rbind] in E; [|discriminate|discriminate].
    injection E as <-. apply collect_forall2 in EC. apply in_concat in Hc as [r [Hr Hc]].
    assert (exists l claims, layer_eval_claims l (rev (combine (map (fun e : exp_spec F => match xp_base e with BaseConst _ => None | BaseOracle id => Some id end) es) (map xp_bits es))) claims = Ok r) as [l [claims EL]].
    { clear - EC Hr. induction EC as [|x y l l' H EC IH]; [destruct Hr|]. destruct Hr as [<-|Hr]; [|auto].
      destruct (nth_error layers x); cbn [of_opt rbind] in H; [eauto|discriminate]. }
    destruct (layer_eval_claims_ids l _ _ _ EL c Hc) as [b [m [A B]]]. apply in_rev in A. rewrite (combine_map2 _ xp_bits) in A.
    apply in_map_iff in A as [e [EE He]]. injection EE as <- <-. exists e. split; auto. destruct B as [B|B]; [now left|]. right.
    destruct (xp_base e); [discriminate|]. now injection B as ->.
  Qed.

  Theorem exp_phase_claims_operands nv es tape cs ecs t r :
    vrun (exp_phase nv es) tape cs = Ok (ecs, t, r) -> forall c, In c ecs -> operand (reorder_exponents nv es) (fst (fst c)).
  Proof.
    intros H. eapply (returns_vrun F (fun ecs => forall c, In c ecs -> operand (reorder_exponents nv es) (fst (fst c)))); [|exact H].
    unfold exp_phase. eapply returns_bind; [apply returns_true|]. intros ch _. eapply returns_bind; [apply returns_true|]. intros ev _.
    eapply returns_bind; [apply returns_true|]. intros claims _. eapply returns_bind; [apply returns_true|]. intros layers _.
    destruct (exp_eval_claims _ layers) as [ecs'| |] eqn:E; cbn [returns]; auto. now apply exp_eval_claims_ids with (layers := layers).
  Qed.

  Lemma reorder_in nv (es : list (exp_spec F)) e : In e (reorder_exponents nv es) <-> In e es.
  Proof. unfold reorder_exponents. split; apply Permutation.Permutation_in; [|symmetry]; apply sort_perm. Qed.

  (** Whatever the transcript, the claims of an accepted run stay true when the result columns (or any other columns that
      are neither bits nor bases) are replaced. *)
  Theorem exp_phase_ignores_results nv es tape cs ecs t r (tab tab' : nat -> nat -> F) :
    vrun (exp_phase nv es) tape cs = Ok (ecs, t, r) -> Forall (eval_claim_holds tab) ecs ->
    (forall id x, operand es id -> tab' id x = tab id x) -> Forall (eval_claim_holds tab') ecs.
  Proof.
    intros H T EQ. rewrite Forall_forall in *. intros [[id p] v] Hc. specialize (T _ Hc). cbn [eval_claim_holds] in *. rewrite T. apply mle_ext. intros x _.
    symmetry. apply EQ. destruct (exp_phase_claims_operands nv es tape cs ecs t r H _ Hc) as [e [He Ho]]. exists e. split; auto. now apply reorder_in in He.
  Qed.

  (** With a fixed base equal to one the reduction is neither sound nor complete: a false claim is accepted with claims
      on the bits that are true, and a true claim leads to a false claim on a bit. *)
  Definition base_one_inst (b : bool) : exp_inst := mkXi 0 1 (fun _ _ => b) (inl 1).
  Theorem exp_base_one_refuted (v : F) :
    let ic := fun b v => (base_one_inst b, mkEx [] v 1 0 (Some 1)) in
    (belongs (ic false v) /\ (v <> 1 -> ~ exp_claim_true (ic false v)) /\
     exists layers, vrun (exp_verify HighToLow [snd (ic false v)]) [] [] = Ok (layers, [], []) /\ layers_true [base_one_inst false] layers) /\
    (belongs (ic true 1) /\ exp_claim_true (ic true 1) /\
     forall tape cs layers t r, vrun (exp_verify HighToLow [snd (ic true 1)]) tape cs = Ok (layers, t, r) -> ~ layers_true [base_one_inst true] layers).
  Proof.
    cbn zeta. assert (B : forall b v, belongs (base_one_inst b, mkEx [] v 1 0 (Some 1))) by (intros; cbn; repeat split; lia).
    assert (P : forall b v, exp_claim_true (base_one_inst b, mkEx [] v 1 0 (Some 1)) <-> v = 1).
    { intros b w. unfold exp_claim_true. cbn [fst snd ex_eval ex_point]. rewrite mle_nil. unfold power_table, base_at, base_one_inst. cbn [xi_base].
      assert (O : forall n, fpow (F := F) 1 n = 1) by (intros n; induction n as [|n IH]; cbn [fpow]; [reflexivity|rewrite IH; ring]).
      rewrite O. reflexivity. }
    assert (Z : forall w : F, first_layer_inverse w 1 = 0).
    { intros w. unfold first_layer_inverse. replace (1 - 1 : F) with (0 : F) by ring. rewrite f_inv_0. ring. }
    assert (R : forall w : F, exp_verify HighToLow [mkEx [] w 1 0 (Some 1)] = VRet (Ok [[([], first_layer_inverse w 1)]])).
    { intros w. assert (E : batch_verify HighToLow ([] : list (claim F)) = VRet (Ok ([], []))).
      { unfold batch_verify. cbn. now rewrite feqb_refl. }
      unfold exp_verify. cbn [rev map is_sorted_ascending ex_n app negb ex_width fold_right Nat.max exp_layers].
      change (layer_sumcheck_claims 0 [mkEx [] w 1 0 (Some 1)]) with (Ok (([] : list (claim F)), [[] : list F])).
      cbn [vbind fst snd]. change (reduce_to_regular ([] : list (claim F))) with (Ok ([] : list (claim F))). cbn [vbind]. rewrite E. reflexivity. }
    cbn [snd]. split.
    - split; [apply B|]. split; [intros N T; apply N; now apply P in T|].
      eexists. split; [rewrite R; reflexivity|]. constructor; [|constructor]. constructor; [|constructor]. unfold claim_holds. cbn [fst snd].
      rewrite mle_nil. apply Z.
    - split; [apply B|]. split; [now apply P|]. intros tape cs layers t r H. rewrite R in H. cbn [vrun] in H. injection H as <- _ _. intros T.
      inversion T as [|? ? ? ? T1 _]; subst. unfold layer_true in T1. cbn in T1. inversion T1 as [|? ? ? ? T2 _]; subst. unfold claim_holds in T2. cbn [fst snd] in T2.
      rewrite mle_nil, Z in T2. unfold bit_table in T2. cbn in T2. apply (f_10 F). auto.
  Qed.
End Props.

(* ------------------------------------------------------------------ *)
(** Concrete cases over the field with 16 elements. *)

(** [5^3] with a fixed base, and [base^2] with a base column; two bits each; no variables *)
Definition exp_ics (v : N) : list (exp_inst X16 * exp_claim X16) :=
  [(mkXi 0 2 (fun _ _ => true) (inl (el 5%N)), mkEx [] (el v) 2 0 (Some (el 5%N)));
   (mkXi 0 2 (fun k _ => (k =? 1)%nat) (inr (fun _ => el 6%N)), mkEx [] (fmul (el 6%N) (el 6%N)) 2 0 None)].

Fact exp_ex :
  let cube := bits (fmul (el 5%N) (fmul (el 5%N) (el 5%N))) in
  (forall v, Forall (belongs X16) (exp_ics v)) /\ Forall (base_not_one X16) (map fst (exp_ics 1%N)) /\
  Forall (exp_claim_true X16) (exp_ics cube) /\ ~ exp_claim_true X16 (mkXi 0 2 (fun _ _ => true) (inl (el 5%N)), mkEx [] (el 1%N) 2 0 (Some (el 5%N))) /\
  (max_width (map fst (exp_ics 1%N)), max_exp_vars (map fst (exp_ics 1%N))) = (2, 0)%nat /\
  (exists layers, vrun (exp_verify HighToLow (map snd (exp_ics cube))) (els [5; 1; 6; 0; 6; 1; 6; 1; 1]%N) (els [7; 9]%N) = Ok (layers, [], []) /\
     layers_true (map fst (exp_ics cube)) layers) /\
  vrun (exp_verify HighToLow (map snd (exp_ics 1%N))) (els [5; 1; 6; 0; 6; 1; 6; 1; 1]%N) (els [7; 9]%N) = Err /\
  (exists layers, vrun (exp_verify HighToLow (map snd (exp_ics 1%N))) (els [5; 1; 6; 0; 6; 1; 6; 1; 1]%N) (els [0; 9]%N) = Ok (layers, [], []) /\
     layers_true (map fst (exp_ics 1%N)) layers).
Proof.
  cbn zeta. split; [|split; [|split; [|split; [|split; [|split; [|split]]]]]].
  - intros v. repeat constructor.
  - repeat constructor. intros H. apply (f_equal bits) in H. vm_compute in H. discriminate H.
  - repeat constructor; vm_compute; reflexivity.
  - intros H. apply (f_equal bits) in H. vm_compute in H. discriminate H.
  - reflexivity.
  - eexists. split; [vm_compute; reflexivity|]. repeat constructor; vm_compute; reflexivity.
  - vm_compute. reflexivity.
  - eexists. split; [vm_compute; reflexivity|]. repeat constructor; vm_compute; reflexivity.
Qed.

(** The exponentiation phase: bits 1, 1 in columns 0 and 1, base 5, result in column 2.  Whatever the result column
    holds, the honest transcript is accepted and all its claims are true. *)
Definition exp_tab (v : N) (id x : nat) : X16 := match id with O | 1%nat => el 1%N | _ => el v end.
Definition exp_es : list (exp_spec X16) := [mkExp [0; 1]%nat (BaseConst (el 5%N)) 2].

Theorem exp_phase_binds_result_refuted :
  exists tape cs ecs, vrun (exp_phase (fun _ => 0%nat) exp_es) tape cs = Ok (ecs, [], []) /\
    forall v, Forall (spec_ok X16 (exp_tab v)) exp_es /\ Forall (eval_claim_holds (exp_tab v)) ecs /\
      (v = 1%N -> exp_tab v 2 0 <> power_table (spec_inst X16 (fun _ => 0%nat) (exp_tab v) (hd (mkExp [] (BaseOracle 0%nat) 0) exp_es)) 0).
Proof.
  exists (els [bits (fmul (el 5) (fmul (el 5) (el 5))); 5; 1; 1]%N), (els [7]%N). eexists. split; [vm_compute; reflexivity|]. intros v. split; [|split].
  - constructor; [|constructor]. split; [discriminate|]. split; [|split; [|cbn; lia]].
    + intros id x [<-|[<-|[]]]; right; reflexivity.
    + intros H. apply (f_equal bits) in H. vm_compute in H. discriminate H.
  - repeat constructor; vm_compute; reflexivity.
  - intros -> H. apply (f_equal bits) in H. vm_compute in H. discriminate H.
Qed.

(** a false claim in terms of columns, accepted for the challenge zero only *)
Fact exp_oracle_ex :
  let p := get layers <- exp_verify HighToLow [mkEx [] (el 1%N) 2 0 (Some (el 5%N))]; VRet (exp_eval_claims exp_es layers) in
  exp_make_claims (fun _ => 0%nat) exp_es [] [el 1%N] = Ok [mkEx [] (el 1%N) 2 0 (Some (el 5%N))] /\
  Forall (spec_ok X16 (exp_tab 1%N)) exp_es /\
  el 1%N <> mle (power_table (spec_inst X16 (fun _ => 0%nat) (exp_tab 1%N) (mkExp [0; 1]%nat (BaseConst (el 5%N)) 2))) [] /\
  (exists ecs, vrun p (els [5; 1; 1]%N) (els [0]%N) = Ok (ecs, [], []) /\ Forall (eval_claim_holds (exp_tab 1%N)) ecs) /\
  vrun p (els [5; 1; 1]%N) (els [3]%N) = Err.
Proof.
  cbn zeta. split; [reflexivity|]. split; [destruct exp_phase_binds_result_refuted as [? [? [? [_ H]]]]; apply H|]. split; [|split].
  - intros H. apply (f_equal bits) in H. vm_compute in H. discriminate H.
  - eexists. split; [vm_compute; reflexivity|]. repeat constructor; vm_compute; reflexivity.
  - vm_compute. reflexivity.
Qed.

(** A fixed base with more than 64 exponent bits makes the verifier overflow, although the claim is well formed. *)
Theorem exp_wide_fixed_base_refuted (F : field) (g v : F) : forall tape cs,
  vrun (exp_verify HighToLow [mkEx [] v 66 0 (Some g)]) tape cs = Panic.
Proof. reflexivity. Qed.
