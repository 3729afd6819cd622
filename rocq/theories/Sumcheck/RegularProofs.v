(** The regular sumcheck prover meets the contract of provers. *)
Require Import Coq.setoid_ring.Ring Coq.Arith.Arith Coq.Lists.List Coq.Bool.Bool Coq.Sorting.Permutation Lia.
From Verif Require Import Base.Fld Base.Lists Base.Sums Base.Poly Base.NatBits Math.MleSpec Math.MleModel Math.MleProofs Math.MleProps
  Math.TensorProps Math.UnivariateModel Math.UnivariateProps Math.SubcubeModel Math.SubcubeProps
  Sumcheck.SumcheckModel Sumcheck.SumcheckSpec Sumcheck.SumcheckProofs Sumcheck.BatchProverModel Sumcheck.BatchProverSpec
  Sumcheck.BatchProverProofs Sumcheck.StateModel Sumcheck.FoldProofs Sumcheck.RoundProofs Sumcheck.StateProofs Sumcheck.RegularModel.
Import ListNotations.

Section Proofs.
  Variable F : field.
  Local Open Scope fld_scope.
  Add Ring Fring : (f_ring F).
  Notation cur := (cur F).

  (** sum over the hypercube of a composition after substituting [p] *)
  Definition total (o : order) (vs : list (nat -> F)) (c : comp F) (p : list F) (k : nat) : F :=
    sumn (2 ^ k) (fun y => val (c_eval c (map (fun v => cur o v p k y) vs))).

  Lemma total_bsum o vs c p k : total o vs c p k = bsum k (fun l => cval F vs c (pt o (p ++ l))).
  Proof.
    transitivity (bsum k (fun l => cval F vs c (match o with LowToHigh => p ++ l | HighToLow => l ++ rev p end))).
    - rewrite bsum_vertex. apply sumn_ext. intros y Hy. unfold cval. do 2 f_equal. apply map_ext. intros v. now destruct o.
    - destruct o; cbn [pt]; [reflexivity|].
      rewrite <- (bsum_rev F k (fun l => cval F vs c (l ++ rev p))). apply bsum_ext. intros l _. now rewrite rev_app_distr.
  Qed.

  Lemma total_step o vs c p k : total o vs c p (S k) = total o vs c (p ++ [0]) k + total o vs c (p ++ [1]) k.
  Proof.
    rewrite !total_bsum. cbn [bsum]. f_equal; apply bsum_ext; intros l _; now rewrite <- app_assoc.
  Qed.

  Lemma round_value_total o i a p x k :
    round_value o i a p x k = peval (map (fun cs => total o (snd i) (fst cs) (p ++ [x]) k) (cl_sums (fst i))) a.
  Proof.
    unfold round_value. rewrite (map_ext _ _ (fun cs => total_bsum o (snd i) (fst cs) (p ++ [x]) k)).
    rewrite <- (bsum_peval F k (fun cs l => cval F (snd i) (fst cs) (pt o ((p ++ [x]) ++ l)))).
    rewrite bsum_vertex. apply sumn_ext. intros y _. f_equal. apply map_ext. intros cs. unfold cval, mvals.
    now rewrite <- app_assoc.
  Qed.

  Lemma total_true o vs c n : total o vs c [] n = true_sum c n vs.
  Proof.
    unfold total, true_sum. apply sumn_ext. intros y Hy. do 2 f_equal. apply map_ext. intros v.
    destruct o; cbn [FoldProofs.cur rev app]; rewrite ?app_nil_r; now apply mle_on_cube.
  Qed.

  Lemma poly_sum N d (f : nat -> list F) : (forall i, (i < N)%nat -> length (f i) = S d) ->
    exists C, length C = S d /\ (forall x, peval C x = sumn N (fun i => peval (f i) x)) /\
      nth d C 0 = sumn N (fun i => nth d (f i) 0).
  Proof.
    induction N as [|N IH]; intros H.
    - exists (repeat 0 (S d)). split; [apply repeat_length|]. split.
      + intros x. rewrite sumn_0. apply peval_zero. apply Forall_forall. intros a Ha. now apply repeat_spec in Ha.
      + rewrite sumn_0. apply nth_repeat0. lia.
    - destruct IH as [C [L [P N']]]; [intros; apply H; lia|]. exists (padd C (f N)).
      split; [rewrite padd_length, L, H by lia; lia|]. split.
      + intros x. rewrite peval_padd, P, sumn_S. reflexivity.
      + rewrite padd_nth, N', sumn_S. reflexivity.
  Qed.

  (** The round polynomial of a composition. *)
  Lemma round_coeffs o vs c p k : comp_ok c -> length vs = c_nv c ->
    exists C, length C = S (c_deg c) /\ (forall x, peval C x = total o vs c (p ++ [x]) k) /\
      nth (c_deg c) C 0 = sumn (2 ^ k) (fun y => val (c_lead c (map (fun v => cur o v (p ++ [1]) k y - cur o v (p ++ [0]) k y) vs))).
  Proof.
    intros [_ [_ [HC _]]] HL.
    assert (G : forall y, exists C, length C = S (c_deg c) /\
      (forall x, val (c_eval c (map (fun v => cur o v (p ++ [x]) k y) vs)) = peval C x) /\
      nth (c_deg c) C 0 = val (c_lead c (map (fun v => cur o v (p ++ [1]) k y - cur o v (p ++ [0]) k y) vs))).
    { intros y. destruct (HC (map (fun v => cur o v (p ++ [0]) k y) vs) (map (fun v => cur o v (p ++ [1]) k y - cur o v (p ++ [0]) k y) vs))
        as [C [L [E1 E2]]]; [now rewrite map_length..|].
      exists C. split; auto. split; [|now rewrite E2]. intros x.
      assert (AL : map (fun v => cur o v (p ++ [x]) k y) vs =
        aline (map (fun v => cur o v (p ++ [0]) k y) vs) (map (fun v => cur o v (p ++ [1]) k y - cur o v (p ++ [0]) k y) vs) x).
      { clear. unfold aline. induction vs as [|v vs IH]; cbn [map combine fst snd]; [reflexivity|]. rewrite IH. f_equal.
        rewrite (cur_line F o v p k y x). ring. }
      rewrite AL, E1. reflexivity. }
    assert (CH : forall N, exists f : nat -> list F, forall y, (y < N)%nat -> length (f y) = S (c_deg c) /\
      (forall x, val (c_eval c (map (fun v => cur o v (p ++ [x]) k y) vs)) = peval (f y) x) /\
      nth (c_deg c) (f y) 0 = val (c_lead c (map (fun v => cur o v (p ++ [1]) k y - cur o v (p ++ [0]) k y) vs))).
    { induction N as [|N [f IH]]; [exists (fun _ => []); intros; lia|]. destruct (G N) as [C HC'].
      exists (fun y => if (y =? N)%nat then C else f y). intros y Hy. destruct (Nat.eqb_spec y N) as [->|NE]; auto. apply IH. lia. }
    destruct (CH (2 ^ k)%nat) as [f Hf].
    destruct (poly_sum (2 ^ k) (c_deg c) f) as [C [L [P N]]]; [intros; now apply Hf|].
    exists C. split; auto. split.
    - intros x. rewrite P. apply sumn_ext. intros y Hy. symmetry. now apply Hf.
    - rewrite N. apply sumn_ext. intros y Hy. now apply Hf.
  Qed.

  (* ---------------------------------------------------------------- *)
  (** Evaluation domains. *)

  (** [factory]: the domain of a size has the finite points [0, 1, rest...], and the point at infinity
      in addition if it has more than two points. *)
  Definition factory_ok (factory : nat -> res (evdomain F)) (rest : list F) (max : nat) : Prop :=
    (max - 1 <= 2 + length rest)%nat /\
    forall size, (2 <= size <= max)%nat ->
      exists d, factory size = Ok d /\ from_points (0 :: 1 :: firstn (size - 3) rest) (3 <=? size)%nat = Ok d.

  Definition dom_ok (rest : list F) (c : comp F) (d : intdomain F) : Prop :=
    (1 <= c_deg c)%nat /\ (c_deg c - 2 <= length rest)%nat /\
    ed_points (id_ed d) = 0 :: 1 :: firstn (c_deg c - 2) rest /\
    ed_inf (id_ed d) = (3 <=? c_deg c + 1)%nat /\ ed_size (id_ed d) = S (c_deg c) /\
    (forall C, length C = S (c_deg c) ->
       interpolate d (domain_values (0 :: 1 :: firstn (c_deg c - 2) rest) (3 <=? c_deg c + 1)%nat C) = Ok C).

  Lemma int_domain_ed (e : evdomain F) d : interpolation_domain e = Ok d -> id_ed d = e.
  Proof.
    unfold interpolation_domain. destruct (of_opt _); cbn [rbind]; try discriminate.
    destruct (expect _); cbn [rbind]; try discriminate. intros H. injection H as <-. reflexivity.
  Qed.

  Lemma domains_ok factory rest max (comps : list (comp F)) : factory_ok factory rest max ->
    (forall c, In c comps -> (1 <= c_deg c)%nat /\ (c_deg c + 1 <= max)%nat) ->
    exists ds, domains_for factory (map c_deg comps) = Ok ds /\ Forall2 (dom_ok rest) comps ds.
  Proof.
    intros [LR HF] HC. unfold domains_for. rewrite map_map.
    apply (collect_ex (fun c => try ed <- factory (c_deg c + 1)%nat; interpolation_domain ed) (dom_ok rest)).
    intros c Hc. destruct (HC c Hc) as [D1 D2]. destruct (HF (c_deg c + 1)%nat ltac:(lia)) as [e [E FP]]. rewrite E. cbn [rbind].
    replace (c_deg c + 1 - 3)%nat with (c_deg c - 2)%nat in FP by lia.
    destruct (interpolate_correct F _ _ _ FP) as [d [ED [IN _]]]. exists d. split; auto.
    destruct (from_points_weights F _ _ _ FP) as [_ [E1 [E2 _]]].
    assert (SZ : ed_size e = S (c_deg c)).
    { unfold ed_size. rewrite E1, E2. cbn [length]. rewrite firstn_length.
      destruct (Nat.leb_spec 3 (c_deg c + 1)); lia. }
    unfold dom_ok. rewrite (int_domain_ed _ _ ED). split; auto. split; [lia|]. split; auto. split; auto. split; auto.
    intros C HCl. apply IN. congruence.
  Qed.

  Lemma starts_with_firstn (l : list F) m : starts_with l (firstn m l) = true.
  Proof. revert m. induction l as [|a l IH]; intros [|m]; cbn [firstn starts_with]; auto. now rewrite feqb_refl, IH. Qed.

  Lemma nontrivial_ok rest (comps : list (comp F)) ds : Forall2 (dom_ok rest) comps ds ->
    exists D, nontrivial_points ds = Ok (firstn (D - 2) rest) /\
      (forall c, In c comps -> (c_deg c <= D)%nat) /\ (D - 2 <= length rest)%nat /\ (comps <> [] -> exists c, In c comps /\ c_deg c = D).
  Proof.
    intros H. destruct ds as [|d ds].
    - inversion H; subst. exists 0%nat. cbn. split; auto. split; [intros c []|]. split; [lia|]. congruence.
    - unfold nontrivial_points.
      set (lg := fold_left _ ds d).
      assert (LG : In lg (d :: ds) /\ forall e, In e (d :: ds) -> (ed_size (id_ed e) <= ed_size (id_ed lg))%nat).
      { unfold lg. clear. revert d. induction ds as [|d' ds IH]; intros d; cbn [fold_left].
        - split; [now left|]. intros e [->|[]]. lia.
        - destruct (IH (if (ed_size (id_ed d) <=? ed_size (id_ed d'))%nat then d' else d)) as [I M].
          split.
          + destruct I as [I|I]; [|right; now right]. rewrite <- I.
            destruct (ed_size (id_ed d) <=? ed_size (id_ed d'))%nat; [right; now left|now left].
          + intros e [->|[->|He]].
            * etransitivity; [|apply M; now left]. destruct (Nat.leb_spec (ed_size (id_ed e)) (ed_size (id_ed d'))); lia.
            * etransitivity; [|apply M; now left]. destruct (Nat.leb_spec (ed_size (id_ed d)) (ed_size (id_ed e))); lia.
            * apply M. now right. }
      destruct LG as [I M].
      assert (ALL : forall e, In e (d :: ds) -> exists c, In c comps /\ dom_ok rest c e).
      { revert H. generalize (d :: ds). clear. induction 1 as [|c e cs es Hc H IH]; [intros e []|].
        intros e' [->|He]; [exists c; split; auto; now left|]. destruct (IH e' He) as [c' [A B]]. exists c'. split; auto. now right. }
      assert (ALL2 : forall c, In c comps -> exists e, In e (d :: ds) /\ dom_ok rest c e).
      { revert H. generalize (d :: ds). clear. induction 1 as [|c e cs es Hc H IH]; [intros e []|].
        intros e' [->|He]; [exists e; split; auto; now left|]. destruct (IH e' He) as [c' [A B]]. exists c'. split; auto. now right. }
      destruct (ALL lg I) as [cl [Icl [D1 [D2 [D3 [D4 [D5 _]]]]]]].
      exists (c_deg cl).
      assert (MX : forall c, In c comps -> (c_deg c <= c_deg cl)%nat).
      { intros c Hc. destruct (ALL2 c Hc) as [e [He [_ [_ [_ [_ [S5 _]]]]]]]. specialize (M e He). lia. }
      assert (FA : forallb (fun d => ((ed_size (id_ed d) <=? 2)%nat || ed_inf (id_ed d))
                                 && feqb (nth 0 (ed_points (id_ed d)) 0) 0
                                 && feqb (nth 1 (ed_points (id_ed d)) 1) 1) (d :: ds) = true).
      { apply forallb_forall. intros e He. destruct (ALL e He) as [c [_ [E1 [E2 [E3 [E4 [E5 _]]]]]]].
        rewrite E3, E4, E5. cbn [nth]. rewrite !feqb_refl, !andb_true_r.
        destruct (Nat.leb_spec (S (c_deg c)) 2), (Nat.leb_spec 3 (c_deg c + 1)); auto; lia. }
      rewrite FA. cbn [negb].
      assert (EX : existsb (fun d => negb (starts_with (ed_points (id_ed lg)) (ed_points (id_ed d)))) (d :: ds) = false).
      { apply not_true_iff_false. intros E. apply existsb_exists in E as [e [He E]].
        destruct (ALL e He) as [c [Ic [E1 [E2 [E3 [E4 [E5 _]]]]]]]. rewrite E3, D3 in E. cbn [starts_with] in E.
        rewrite !feqb_refl in E. cbn [andb] in E.
        rewrite <- (Nat.min_l (c_deg c - 2) (c_deg cl - 2)) in E by (specialize (MX c Ic); lia).
        rewrite <- firstn_firstn, starts_with_firstn in E. discriminate. }
      rewrite EX, D3. cbn [length]. rewrite Nat.min_l by lia. cbn [skipn]. split; auto. split; auto. split; auto.
      intros _. exists cl. auto.
  Qed.

  Lemma last_nth (C : list F) d : length C = S d -> last C 0 = nth d C 0.
  Proof.
    revert d. induction C as [|a C IH]; intros d H; [discriminate|]. destruct C as [|b C]; [cbn in H; now replace d with 0%nat by lia|].
    destruct d as [|d]; [cbn in H; lia|]. change (last (a :: b :: C) 0) with (last (b :: C) 0).
    change (nth (S d) (a :: b :: C) 0) with (nth d (b :: C) 0). apply IH. cbn in *. lia.
  Qed.

  Lemma map_nth_firstn (l : list F) m (g : F -> F) : (m <= length l)%nat -> map (fun t => g (nth t l 0)) (seq 0 m) = map g (firstn m l).
  Proof.
    revert l. induction m as [|m IH]; intros [|a l] H; cbn in *; try reflexivity; try lia. f_equal.
    rewrite <- seq_shift, map_map. apply IH. lia.
  Qed.

  Lemma seq_plus a m : seq a m = map (Nat.add a) (seq 0 m).
  Proof. induction a as [|a IH]; [symmetry; apply map_id|]. rewrite <- seq_shift, IH, map_map. reflexivity. Qed.

  (** Interpolation from the claimed sum and the evaluations at 1, infinity and the other points. *)
  Lemma regular_interpolate_ok rest c d C sum (h : nat -> F) : dom_ok rest c d -> length C = S (c_deg c) ->
    sum = peval C 0 + peval C 1 -> h 1%nat = peval C 1 -> ((2 <= c_deg c)%nat -> h 2%nat = nth (c_deg c) C 0) ->
    (forall t, (t < c_deg c - 2)%nat -> h (3 + t)%nat = peval C (nth t rest 0)) ->
    regular_interpolate d sum (map h (seq 1 (c_deg c))) = Ok C.
  Proof.
    intros [D1 [D2 [_ [_ [_ IN]]]]] LC HS H1 H2 H3. specialize (IN C LC). unfold regular_interpolate.
    assert (S0 : sum - h 1%nat = peval C 0) by (rewrite HS, H1; ring).
    destruct (c_deg c) as [|[|[|dg]]] eqn:ED; [lia| | |].
    - cbn [seq map length Nat.ltb Nat.leb]. rewrite <- IN. f_equal. cbn. rewrite S0, H1. reflexivity.
    - cbn [seq map length Nat.ltb Nat.leb]. rewrite <- IN. f_equal. cbn. rewrite S0, H1, H2, (last_nth _ 2) by (auto; lia). reflexivity.
    - cbn [seq map]. cbn [length]. rewrite map_length, seq_length. cbn [Nat.ltb Nat.leb firstn skipn nth app].
      rewrite <- IN. f_equal. unfold domain_values. cbn [map app]. rewrite S0, H1, H2 by lia. do 2 f_equal.
      replace (3 <=? S (S (S dg)) + 1)%nat with true by (symmetry; apply Nat.leb_le; lia).
      rewrite (last_nth _ _ LC). f_equal. cbn [Nat.sub].
      rewrite <- (map_nth_firstn rest (S dg) (peval C)) by (cbn [Nat.sub] in D2; lia).
      transitivity (map h (seq 3 (S dg)) ++ [nth (S (S (S dg))) C 0]); [reflexivity|]. f_equal.
      rewrite (seq_plus 3 (S dg)), map_map. apply map_ext_in. intros t Ht. apply in_seq in Ht. apply H3. cbn [Nat.sub]. lia.
  Qed.

  (* ---------------------------------------------------------------- *)
  Variable lw mb : nat.
  Variable junk : nat -> list F.
  Hypothesis junk_length : forall n, length (junk n) = n.
  Variable parts : nat -> list (list nat).
  Hypothesis parts_ok : forall N, Permutation (concat (parts N)) (seq 0 N).

  Definition rf (c : comp F) (inf : bool) (y : nat) (column : list F) : F := val (if inf then c_lead c column else c_eval c column).

  Lemma comp_lead_ok (c : comp F) b : comp_ok c -> length b = c_nv c -> exists v, c_lead c b = Ok v.
  Proof. intros [_ [_ [H _]]] HL. destruct (H b b HL HL) as [C [_ [_ E]]]. eauto. Qed.

  Lemma regular_evok o k vs p points c : comp_ok c -> length vs = c_nv c -> evok F lw o k vs p points (regular_evaluator lw c) (rf c).
  Proof.
    intros HC HL. unfold evok. cbn [ev_used ev_suffix ev_process ev_constant regular_evaluator].
    pose proof HC as [_ [HV [_ [UL UI]]]]. split; [lia|]. split; [lia|]. split; [|split].
    - intros sv idx inf rows Hsv Hs Hidx LR. unfold batch_evaluate.
      set (ev := if inf then c_lead c else c_eval c).
      assert (EV : forall q, length q = c_nv c -> exists v, ev q = Ok v).
      { intros q Hq. unfold ev. destruct inf; [now apply comp_lead_ok|now apply HV]. }
      rewrite (collect_ok _ (fun j => val (ev (map (fun r => nth j r 0) rows)))).
      + cbn [expect]. eexists. split; [reflexivity|]. rewrite map_length, seq_length. split; [apply sv_len|].
        intros s Hs'. pose proof (sv_len sv lw). rewrite nth_map_seq by lia. unfold rf, ev. destruct inf; reflexivity.
      + intros j _. destruct (EV (map (fun r => nth j r 0) rows)) as [v Ev]; [rewrite map_length; lia|]. rewrite Ev. reflexivity.
    - intros inf y c1 c2 L1 L2 A. destruct (UI c1 c2 ltac:(lia) ltac:(lia) A) as [U1 U2]. unfold rf. destruct inf; congruence.
    - intros i sv _ Hsv _. rewrite Nat.sub_0_r.
      assert (SP : (2 ^ (k - sv) * 2 ^ sv = 2 ^ k)%nat) by (rewrite <- Nat.pow_add_r; f_equal; lia).
      assert (E : (div_ceil (2 ^ k) (2 ^ sv) * 2 ^ sv = 2 ^ k)%nat).
      { apply Nat.le_antisymm; [|apply div_ceil_mul_ge, pow2_pos]. rewrite <- SP at 2. apply Nat.mul_le_mono_r.
        apply div_ceil_le; [apply pow2_pos|lia]. }
      cbv zeta. rewrite E, Nat.sub_diag, sumn_0. reflexivity.
  Qed.

  (** the batched round polynomial *)
  Lemma batched_ok (cs : list (list F)) a x : forall acc b,
    let r := fold_left rc_add (map (fun cp => rc_mul (fst cp) (snd cp)) (combine cs (powers_from b a (length cs)))) acc in
    length r = fold_right Nat.max (length acc) (map (@length F) cs) /\
    peval r x = peval acc x + b * peval (map (fun c => peval c x) cs) a.
  Proof.
    induction cs as [|c cs IH]; intros acc b; cbn [length powers_from combine map fold_left fst snd fold_right].
    - split; auto. rewrite peval_nil. ring.
    - destruct (IH (rc_add acc (rc_mul c b)) (b * a)) as [L P]. cbv zeta in *. split.
      + rewrite L, rc_add_length, rc_mul_length. clear. induction cs as [|c' cs IH]; cbn [map fold_right]; lia.
      + rewrite P, rc_add_peval, rc_mul_peval, peval_cons. ring.
  Qed.

  Lemma union_end (evs : list (evaluator F)) D : (forall e, In e evs -> (ev_end e <= D)%nat) -> (exists e, In e evs /\ ev_end e = D) ->
    snd (union_range evs) = D.
  Proof.
    intros HU [e [He ED]]. destruct (union_range_ok F evs e He) as [_ L]. apply Nat.le_antisymm; [|lia].
    destruct evs as [|e0 evs]; [destruct He|]. cbn [union_range].
    assert (G : forall evs r, (snd r <= D)%nat -> (forall e : evaluator F, In e evs -> (ev_end e <= D)%nat) ->
       (snd (fold_left (fun r e => (Nat.min (fst r) (ev_start e), Nat.max (snd r) (ev_end e))) evs r) <= D)%nat).
    { clear. induction evs as [|a evs IH]; intros r Hr H; cbn [fold_left]; auto. apply IH; [|intros; apply H; now right].
      cbn [snd]. specialize (H a (or_introl eq_refl)). lia. }
    apply G; [apply HU; now left|intros; apply HU; now right].
  Qed.

  Section Run.
    Variable o : order.
    Variable i : inst F.
    Variable rest : list F.
    Variable doms : list (intdomain F).
    Variable D cap : nat.
    Hypothesis Hi : inst_ok i.
    Hypothesis Hne : cl_sums (fst i) <> [].
    Hypothesis HD : Forall2 (dom_ok rest) (map fst (cl_sums (fst i))) doms.
    Hypothesis HDmax : forall c, In c (map fst (cl_sums (fst i))) -> (c_deg c <= D)%nat.
    Hypothesis HDlen : (D - 2 <= length rest)%nat.
    Hypothesis HDex : exists c, In c (map fst (cl_sums (fst i))) /\ c_deg c = D.

    Definition rinv (k : nat) (p : list F) (s : regular F) : Prop :=
      rg_n s = cl_n (fst i) /\ rg_comps s = map fst (cl_sums (fst i)) /\ rg_domains s = doms /\
      sinv F lw o (cl_n (fst i)) cap (snd i) (firstn (D - 2) rest) p k (rg_state s).

    Lemma regular_serves k : forall p s, rinv k p s ->
      ps_last (rg_state s) = Sums (map (fun cs => total o (snd i) (fst cs) p k) (cl_sums (fst i))) ->
      serves (regular_ops lw mb junk parts) o i k p s.
    Proof.
      destruct Hi as [HM HC].
      induction k as [|k IH]; intros p s [RN [RC [RD SI]]] PL; cbn [serves regular_ops p_n p_order p_exec p_fold p_finish].
      - split; auto. split; [now apply SI|]. now apply (ps_finish_ok F lw o (cl_n (fst i)) cap (snd i) (firstn (D - 2) rest) p (rg_state s) _ SI PL).
      - split; auto. split; [now apply SI|]. intros a.
        (* round polynomials *)
        assert (RP : exists Cs, Forall2 (fun c C => length C = S (c_deg c) /\ (forall x, peval C x = total o (snd i) c (p ++ [x]) k) /\
           nth (c_deg c) C 0 = sumn (2 ^ k) (fun y => val (c_lead c (map (fun v => cur o v (p ++ [1]) k y - cur o v (p ++ [0]) k y) (snd i)))))
           (map fst (cl_sums (fst i))) Cs).
        { assert (G : forall l, incl l (cl_sums (fst i)) -> exists Cs, Forall2 (fun c C => length C = S (c_deg c) /\ (forall x, peval C x = total o (snd i) c (p ++ [x]) k) /\
           nth (c_deg c) C 0 = sumn (2 ^ k) (fun y => val (c_lead c (map (fun v => cur o v (p ++ [1]) k y - cur o v (p ++ [0]) k y) (snd i))))) (map fst l) Cs).
          { induction l as [|cs l IHl]; intros HI; [exists []; constructor|]. destruct IHl as [Cs FA]; [intros x Hx; apply HI; now right|].
            destruct (HC cs) as [OK NV]; [apply HI; now left|].
            destruct (round_coeffs o (snd i) (fst cs) p k OK) as [C HCC]; [congruence|]. exists (C :: Cs). cbn [map]. constructor; auto. }
          apply G, incl_refl. }
        destruct RP as [Cs FC].
        destruct SI as [Lp [Hk [PN [PO [PP [PC [HR HQ]]]]]]].
        unfold regular_execute. rewrite RC, RD. unfold ps_round_evals. rewrite PO, PN, PP.
        set (comps := map fst (cl_sums (fst i))) in *.
        pose proof (forall2_length _ _ _ HD) as LD. pose proof (forall2_length _ _ _ FC) as LCs.
        assert (EVS : map (fun cd => regular_evaluator lw (fst cd)) (combine comps doms) = map fst (map (fun c => (regular_evaluator lw c, rf c)) comps)).
        { rewrite map_map. cbn [fst]. clear - LD. revert doms LD. induction comps as [|c cs IHc]; intros [|d ds] LD; try discriminate; [reflexivity|].
          cbn [combine map fst]. f_equal. apply IHc. cbn in LD. lia. }
        rewrite EVS.
        rewrite (calculate_round_evals_ok F lw mb junk junk_length o (cl_n (fst i)) k (snd i) p Lp Hk (firstn (D - 2) rest) parts (ps_ms (rg_state s))
                   (ps_query (rg_state s)) (map (fun c => (regular_evaluator lw c, rf c)) comps) 1%nat); auto.
        2:{ intros HT. apply (query_inv_ok F lw o (cl_n (fst i)) cap p (ps_ms (rg_state s))); auto. }
        2:{ intros ef Hef. apply in_map_iff in Hef as [c [<- Hc]]. cbn [fst snd]. split; [|reflexivity].
            unfold comps in Hc. apply in_map_iff in Hc as [cs [<- Hcs]]. destruct (HC cs Hcs) as [OK NV]. apply regular_evok; auto. congruence. }
        2:{ rewrite (union_end _ (D + 1)).
            - rewrite firstn_length. lia.
            - intros e He. apply in_map_iff in He as [ef [<- Hef]]. apply in_map_iff in Hef as [c [<- Hc]]. cbn [fst ev_end regular_evaluator].
              specialize (HDmax c Hc). lia.
            - destruct HDex as [c [Hc <-]]. exists (regular_evaluator lw c). split; [|reflexivity].
              rewrite map_map. cbn [fst]. now apply in_map. }
        cbn [rbind]. unfold ps_round_coeffs. rewrite PL. rewrite !map_length, combine_length, <- LD, Nat.min_id.
        unfold comps at 1. rewrite map_length, Nat.eqb_refl. cbn [negb].
        set (points := firstn (D - 2) rest) in *.
        set (ises := combine (map (fun cd => regular_interpolate (snd cd)) (combine comps doms)) _).
        assert (INT : collect_res (map (fun ise : (F -> list F -> res (list F)) * (F * list F) =>
                    fst ise (fst (snd ise)) (snd (snd ise))) ises) = Ok Cs).
        { unfold ises. unfold shape. rewrite !map_map. cbn [fst snd ev_start ev_end regular_evaluator].
          assert (SG : map (fun cs => total o (snd i) (fst cs) p (S k)) (cl_sums (fst i)) = map (fun c => total o (snd i) c p (S k)) comps)
            by (unfold comps; now rewrite map_map).
          rewrite SG. clear SG EVS ises.
          assert (HC' : forall c, In c comps -> comp_ok c /\ length (snd i) = c_nv c).
          { intros c Hc. unfold comps in Hc. apply in_map_iff in Hc as [cs [<- Hcs]]. destruct (HC cs Hcs). split; auto; congruence. }
          clear - HDlen Lp FC HD HDmax HC'. revert Cs FC HD HDmax HC'. generalize doms. generalize comps.
          clear - HDlen Lp. intros comps. induction comps as [|c cs IHc]; intros ds Cs FC HD HDmax HC'; inversion FC as [|? C ? Cs' [LC [PCx NC]] FC']; subst;
            inversion HD as [|? d ? ds' DO HD']; subst; [reflexivity|].
          cbn [map combine collect_res fst snd].
          replace (c_deg c + 1 - 1)%nat with (c_deg c) by lia.
          rewrite (regular_interpolate_ok rest c d C _ _ DO LC).
          - cbn [rbind]. rewrite IHc with (Cs := Cs'); auto; intros; [apply HDmax|apply HC']; now right.
          - rewrite total_step, !PCx. reflexivity.
          - rewrite PCx. unfold total. apply sumn_ext. intros y Hy. cbn [Nat.eqb]. unfold rf, col. do 2 f_equal. apply map_ext.
            intros v. cbn [pv]. rewrite cur_point by auto. reflexivity.
          - intros _. rewrite NC. apply sumn_ext. intros y Hy. cbn [Nat.eqb]. unfold rf, col. do 2 f_equal. apply map_ext.
            intros v. cbn [pv]. rewrite !cur_point by auto. reflexivity.
          - intros t Ht. rewrite PCx. unfold total. apply sumn_ext. intros y Hy. cbn [Nat.eqb Nat.add]. unfold rf, col. do 2 f_equal. apply map_ext.
            intros v. cbn [pv]. rewrite !cur_point by auto. rewrite (cur_line F o v p k y (nth t rest 0)). unfold extrapolate_line, points.
            specialize (HDmax c (or_introl eq_refl)). rewrite nth_firstn_lt by lia. ring. }
        rewrite INT. cbn [rbind fst snd].
        pose proof (batched_ok Cs a) as B.
        eexists _, _. split; [reflexivity|]. split; [|split].
        + destruct (B 0 [] 1) as [L _]. cbv zeta in L. rewrite L. cbn [length].
          assert (ML : map (@length F) Cs = map (fun c => S (c_deg c)) comps).
          { clear - FC. induction FC as [|c C cs Cs [L _] FC IH]; cbn [map]; [reflexivity|]. now rewrite L, IH. }
          rewrite ML. unfold max_individual_degree. unfold comps. rewrite map_map.
          destruct (cl_sums (fst i)) as [|c0 l0]; [congruence|]. clear. cbn [map fold_right]. induction l0 as [|c1 l0 IH]; cbn [map fold_right]; lia.
        + intros x. destruct (B x [] 1) as [_ P]. cbv zeta in P. rewrite P, peval_nil, round_value_total.
          assert (MP : map (fun c => peval c x) Cs = map (fun cs => total o (snd i) (fst cs) (p ++ [x]) k) (cl_sums (fst i))).
          { rewrite <- (map_map fst (fun c => total o (snd i) c (p ++ [x]) k)). fold comps. clear - FC.
            induction FC as [|c C cs Cs [_ [P _]] FC IH]; cbn [map]; [reflexivity|]. now rewrite P, IH. }
          rewrite MP. ring.
        + intros x. unfold regular_fold. cbn [rg_state rg_n rg_comps rg_domains].
          set (st := mkState (ps_n (rg_state s)) (ps_order (rg_state s)) (ps_ms (rg_state s)) (ps_points (rg_state s))
                       (ps_challenges (rg_state s)) (ps_query (rg_state s)) (Coeffs Cs)).
          destruct (ps_fold_ok F lw mb junk junk_length o (cl_n (fst i)) cap (snd i) points p k st x Cs) as [st' [E [SI' PL']]].
          { unfold sinv. unfold st. cbn [ps_n ps_order ps_ms ps_points ps_challenges ps_query]. repeat split; auto; apply HQ. }
          { reflexivity. }
          rewrite E. cbn [rbind]. eexists. split; [reflexivity|]. apply IH.
          * unfold rinv. cbn [rg_n rg_comps rg_domains rg_state]. auto.
          * cbn [rg_state]. rewrite PL'. f_equal.
            rewrite <- (map_map fst (fun c => total o (snd i) c (p ++ [x]) k)). fold comps. clear - FC.
            induction FC as [|c C cs Cs [_ [P _]] FC IH]; cbn [map]; [reflexivity|]. now rewrite P, IH.
    Qed.
  End Run.
End Proofs.
