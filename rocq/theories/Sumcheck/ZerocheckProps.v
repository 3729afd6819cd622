(** C40: the zerocheck verifier. *)
Require Import Coq.setoid_ring.Ring Coq.Arith.Arith Coq.Lists.List Coq.Bool.Bool Coq.NArith.NArith Coq.Sorting.Sorted Lia.
From Verif Require Import Base.Fld Base.Lists Base.Sums Base.Poly Base.NatBits Math.MleSpec Math.MleModel Math.MleProps Math.TensorProps Math.UnivariateModel Math.UnivariateProps
  Ntt.NttSpec Ntt.SubspaceTheory Ntt.SubspaceModel Ntt.SubspaceProps Protocol.Proto Protocol.Soundness
  Field.TowerModel Field.TowerProofs Field.Examples
  Sumcheck.SumcheckModel Sumcheck.SumcheckSpec Sumcheck.SumcheckProofs Sumcheck.SumcheckSound
  Sumcheck.SumcheckProps Sumcheck.FoldProofs Sumcheck.EqIndModel Sumcheck.EqIndProps Sumcheck.ZerocheckModel Sumcheck.ZerocheckProofs.
Import ListNotations.
Local Close Scope N_scope.

Section Spec.
  Variable F : field.
  Local Open Scope fld_scope.

  (** A zerocheck claim and the multilinears it is about. *)
  Definition zinst : Type := (zclaim F * list (nat -> F))%type.

  (** A composition of degree [d] on polynomials of degree at most [L] is a polynomial of degree at most [d L]. *)
  Definition curve_ok (c : comp F) : Prop :=
    forall L (ps : list (list F)), length ps = c_nv c -> Forall (fun p => length p <= S L)%nat ps ->
      exists cs, (length cs <= S (c_deg c * L))%nat /\ forall t, c_eval c (map (fun p => peval p t) ps) = Ok (peval cs t).

  Definition zinst_ok (zi : zinst) : Prop :=
    length (snd zi) = zc_m (fst zi) /\ zc_comps (fst zi) <> [] /\
    forall c, In c (zc_comps (fst zi)) -> comp_ok c /\ c_nv c = zc_m (fst zi) /\ curve_ok c.

  (** Every composition vanishes on the whole hypercube. *)
  Definition zero_true (zi : zinst) : Prop :=
    forall c x, In c (zc_comps (fst zi)) -> (x < 2 ^ zc_n (fst zi))%nat ->
      c_eval c (map (fun m => m x) (snd zi)) = Ok 0.

  (** The point of the evaluation claims of a claim with [n] variables: the first of the skipped challenges, then the
      last of the unskipped ones, [n] in total. *)
  Definition zpoint (skipped unskipped : list F) (n : nat) : list F :=
    firstn n skipped ++ lastn (n - length skipped) unskipped.

  (** The evaluations in the output are those of the multilinears. *)
  Definition zero_truthful (insts : list zinst) (out : list F * list F * list F) : Prop :=
    let '(skipped, unskipped, evals) := out in
    evals = concat (map (fun zi => map (fun m => mle m (zpoint skipped unskipped (zc_n (fst zi)))) (snd zi)) insts).
End Spec.
Arguments curve_ok {_} _.
Arguments zinst_ok {_} _.
Arguments zero_true {_} _.
Arguments zpoint {_} _ _ _.
Arguments zero_truthful {_} _ _.

Lemma pow_pos' n : (1 <= 2 ^ n)%nat.
Proof. pose proof (Nat.pow_nonzero 2 n ltac:(lia)). lia. Qed.

  Lemma log2_ceil_ge k n : (2 ^ k <= n)%nat -> (k <= log2_ceil n)%nat.
  Proof.
    intros H. unfold log2_ceil, min_bits. destruct (n - 1)%nat as [|m] eqn:E.
    - destruct k as [|k']; [lia|]. exfalso. cbn [Nat.pow] in H. pose proof (pow_pos' k'). lia.
    - assert (k < S (S (Nat.log2 (S m))))%nat; [|lia]. apply (Nat.pow_lt_mono_r_iff 2); [lia|]. pose proof (Nat.log2_spec (S m) ltac:(lia)) as [_ L].
      cbn [Nat.pow] in *. lia.
  Qed.

  Lemma log2_ceil_le n : (n <= 2 ^ log2_ceil n)%nat.
  Proof.
    unfold log2_ceil, min_bits. destruct (n - 1)%nat as [|m] eqn:E; [cbn; lia|]. pose proof (Nat.log2_spec (S m) ltac:(lia)) as [_ L]. lia.
  Qed.

  Lemma last_max (l : list nat) n : StronglySorted le l -> In n l -> (n <= last l 0)%nat.
  Proof.
    revert n. induction l as [|a l IH]; intros n S Hn; [destruct Hn|]. apply StronglySorted_inv in S as [S FA].
    destruct l as [|b l]; [destruct Hn as [<-|[]]; cbn; lia|]. change (last (a :: b :: l) 0%nat) with (last (b :: l) 0%nat).
    destruct Hn as [<-|Hn]; [|now apply IH]. rewrite Forall_forall in FA. transitivity b; [apply FA; now left|]. apply IH; [auto|now left].
  Qed.

Section Props.
  Variable F : field.
  Local Open Scope fld_scope.
  Add Ring Fring : (f_ring F).
  Variable CH : char2 F.
  Variable k : nat.
  Variable low : list F.

  (** the claim after the univariate round *)
  Definition zred (c : zclaim F) : claim F := mkClaim (zc_n c - k) (zc_m c) (map (fun x => (x, 0)) (zc_comps c)).
  Definition slice (n : nat) (m : nat -> F) (u y : nat) : F := m ((u + 2 ^ k * y) mod 2 ^ n)%nat.
  Definition at_z (z : F) (zi : zinst F) : inst F :=
    (zred (fst zi), map (fun m y => sumn (2 ^ k) (fun u => lag F low u z * slice (zc_n (fst zi)) m u y)) (snd zi)).

  Lemma at_z_ok z zi : zinst_ok zi -> inst_ok (at_z z zi).
  Proof.
    intros [L [_ H]]. split; cbn [at_z fst snd zred cl_m cl_sums]; [now rewrite map_length|].
    intros cs Hcs. apply in_map_iff in Hcs as [c [<- Hc]]. destruct (H c Hc) as [A [B _]]. now split.
  Qed.

  Lemma reduce_eq_ind_ok (zis : list (zinst F)) : Forall zinst_ok zis -> StronglySorted le (map zc_n (map fst zis)) ->
    reduce_to_eq_ind k (map fst zis) = Ok (map zred (map fst zis)).
  Proof.
    intros H S. unfold reduce_to_eq_ind. rewrite (asc_sorted _ S). cbn [negb]. apply collect_res_ok. rewrite !map_map.
    apply map_ext_in. intros zi Hzi. rewrite Forall_forall in H. destruct (H zi Hzi) as [_ [_ HC]]. unfold eq_claim_new, claim_new.
    assert (EX : existsb (fun cs : comp F * F => negb (c_nv (fst cs) =? zc_m (fst zi))%nat) (map (fun x => (x, 0)) (zc_comps (fst zi))) = false).
    { apply not_true_iff_false. intros X. apply existsb_exists in X as [x [Hx X]]. apply in_map_iff in Hx as [c [<- Hc]].
      destruct (HC c Hc) as [_ [NV _]]. cbn [fst] in X. rewrite NV, Nat.eqb_refl in X. discriminate. }
    now rewrite EX.
  Qed.

  (* ---------------------------------------------------------------- *)
  (** the batched value as a polynomial of the univariate challenge *)
  Variable low_len : length low = (2 ^ k)%nat.

  Lemma polys_of {A} (l : list A) (g : F -> A -> F) n : (forall a, In a l -> is_poly n (fun z => g z a)) ->
    exists ps, length ps = length l /\ Forall (fun p => length p <= n)%nat ps /\ forall z, map (g z) l = map (fun p => peval p z) ps.
  Proof.
    induction l as [|a l IH]; intros H; [exists []; repeat split; constructor|].
    destruct IH as [ps [L [FA E]]]; [intros; apply H; now right|]. destruct (H a (or_introl eq_refl)) as [p [Lp Ep]].
    exists (p :: ps). cbn [length map]. split; [lia|]. split; [now constructor|]. intros z. now rewrite E, Ep.
  Qed.

  Lemma slice_poly n m y : is_poly (2 ^ k) (fun z => sumn (2 ^ k) (fun u => lag F low u z * slice n m u y)).
  Proof.
    apply (is_poly_sumn F (2 ^ k) (2 ^ k) (fun u z => lag F low u z * slice n m u y)). intros u Hu.
    apply is_poly_ext with (g := fun z => slice n m u y * lag F low u z); [intros; ring|].
    apply is_poly_scale. rewrite <- low_len. apply lag_poly. lia.
  Qed.

  Lemma comp_poly (c : comp F) n ms y D : curve_ok c -> length ms = c_nv c -> (c_deg c * 2 ^ k <= D)%nat -> (1 <= D)%nat ->
    is_poly D (fun z => val (c_eval c (map (fun m => sumn (2 ^ k) (fun u => lag F low u z * slice n m u y)) ms))).
  Proof.
    intros HC L HD H1.
    destruct (polys_of ms (fun z m => sumn (2 ^ k) (fun u => lag F low u z * slice n m u y)) (2 ^ k)) as [ps [LP [FA E]]].
    { intros m _. apply slice_poly. }
    pose proof (pow_pos' k) as PP.
    destruct (HC (2 ^ k - 1)%nat ps) as [cs [LC EC]]; [congruence| |].
    { eapply Forall_impl; [|exact FA]. intros p Hp. cbn beta in *. lia. }
    exists cs. split.
    - destruct (c_deg c) as [|d]; [cbn [Nat.mul] in LC; lia|]. assert (S d * (2 ^ k - 1) + 1 <= S d * 2 ^ k)%nat; [|lia].
      rewrite Nat.mul_sub_distr_l. assert (S d * 1 <= S d * 2 ^ k)%nat by (apply Nat.mul_le_mono_l; lia). lia.
    - intros z. cbv beta. rewrite E, EC. reflexivity.
  Qed.

  Lemma batched_poly r D (zis : list (zinst F)) (coeffs : list F) : Forall zinst_ok zis ->
    (forall zi c, In zi zis -> In c (zc_comps (fst zi)) -> (c_deg c * 2 ^ k <= D)%nat) -> (1 <= D)%nat ->
    is_poly D (fun z => weighted_true_sums (map (reduced r) (map (at_z z) zis)) coeffs).
  Proof.
    intros OK HD H1. revert coeffs. induction zis as [|zi zis IH]; intros coeffs.
    - apply is_poly_le with (n := 0%nat); [lia|]. apply is_poly_0.
    - destruct coeffs as [|a coeffs]; [apply is_poly_le with (n := 0%nat); [lia|]; apply is_poly_0|].
      apply Forall_cons_iff in OK as [OK1 OK]. unfold weighted_true_sums. cbn [map combine fsum fst snd].
      apply is_poly_add; [|apply IH; auto; intros; eapply HD; eauto; now right].
      apply is_poly_scale. destruct OK1 as [L [_ HC]]. cbn [reduced fst snd reduced_claim cl_n cl_sums at_z zred].
      assert (G : forall comps, incl comps (zc_comps (fst zi)) ->
        is_poly D (fun z => peval (map (fun cs : comp F * F => true_sum (fst cs) (zc_n (fst zi) - k)
           (map (fun m y => sumn (2 ^ k) (fun u => lag F low u z * slice (zc_n (fst zi)) m u y)) (snd zi) ++
              [eqw (lastn (zc_n (fst zi) - k) r)])) (map (fun cs : comp F * F => (extra_product (fst cs), snd cs)) (map (fun x => (x, 0)) comps))) a)).
      { induction comps as [|c comps IHc]; intros INC.
        - apply is_poly_le with (n := 0%nat); [lia|]. apply is_poly_0.
        - cbn [map fst snd].
          match goal with |- is_poly _ (fun z => peval (?t :: ?l) a) => apply is_poly_ext with (g := fun z => t + a * peval l a) end;
            [intros z; apply peval_cons|].
          apply is_poly_add; [|apply is_poly_scale, IHc; intros x Hx; apply INC; now right].
          assert (Hc : In c (zc_comps (fst zi))) by (apply INC; now left). destruct (HC c Hc) as [A [B C]].
          unfold true_sum.
          apply (is_poly_sumn F D (2 ^ (zc_n (fst zi) - k)) (fun y z => val (c_eval (extra_product c)
             (map (fun m : nat -> F => m y) (map (fun m y => sumn (2 ^ k) (fun u => lag F low u z * slice (zc_n (fst zi)) m u y)) (snd zi) ++
              [eqw (lastn (zc_n (fst zi) - k) r)]))))).
          intros y Hy.
          apply is_poly_ext with (g := fun z => eqw (lastn (zc_n (fst zi) - k) r) y *
             val (c_eval c (map (fun m => sumn (2 ^ k) (fun u => lag F low u z * slice (zc_n (fst zi)) m u y)) (snd zi)))).
          + intros z. rewrite map_app, map_map. cbn [map]. rewrite extra_value; auto; [ring|]. rewrite map_length. congruence.
          + apply is_poly_scale. apply comp_poly; auto; [congruence|]. eapply HD; [now left|exact Hc]. }
      exact (G (zc_comps (fst zi)) (fun x H => H)).
  Qed.

  (* ---------------------------------------------------------------- *)
  (** at the points of the domain *)
  Variable low_nodup : NoDup low.

  Lemma low_denom i : (i < length low)%nat -> denom F low i <> 0.
  Proof.
    destruct (proj1 (from_points_correct F low false) low_nodup) as [d [E _]].
    destruct (from_points_weights F _ _ _ E) as [_ [_ [_ [_ NZ]]]]. apply NZ.
  Qed.

  Lemma at_point u0 n m y : (u0 < 2 ^ k)%nat ->
    sumn (2 ^ k) (fun u => lag F low u (nth u0 low 0) * slice n m u y) = slice n m u0 y.
  Proof.
    intros Hu. rewrite (sumn_single F (2 ^ k) u0); auto.
    - rewrite lag_point by (auto using low_denom; lia). rewrite Nat.eqb_refl. ring.
    - intros u Hu' NE. rewrite lag_point by (auto using low_denom; lia). rewrite (proj2 (Nat.eqb_neq _ _)) by auto. ring.
  Qed.

  (** a claim that is false is false at a point of the domain, unless the point of the equality indicator is bad *)
  Definition slice_value (zi : zinst F) (c : comp F) (u y : nat) : F :=
    val (c_eval c (map (fun m => slice (zc_n (fst zi)) m u y) (snd zi))).

  Lemma false_at_point zi : zinst_ok zi -> ~ zero_true zi ->
    exists c u0 y, In c (zc_comps (fst zi)) /\ (u0 < 2 ^ k)%nat /\ (y < 2 ^ (zc_n (fst zi) - k))%nat /\ slice_value zi c u0 y <> 0.
  Proof.
    intros [L [_ HC]] NT.
    assert (D : forall comps, incl comps (zc_comps (fst zi)) -> forall N, (N <= 2 ^ zc_n (fst zi))%nat ->
      (forall c x, In c comps -> (x < N)%nat -> c_eval c (map (fun m => m x) (snd zi)) = Ok 0) \/
      exists c x, In c comps /\ (x < N)%nat /\ val (c_eval c (map (fun m => m x) (snd zi))) <> 0).
    { intros comps INC N. induction N as [|N IH]; intros LN; [left; intros; lia|].
      destruct IH as [A|[c [x [H1 [H2 H3]]]]]; [lia| |right; exists c, x; repeat split; auto].
      assert (X : (forall c, In c comps -> c_eval c (map (fun m => m N) (snd zi)) = Ok 0) \/
                  exists c, In c comps /\ val (c_eval c (map (fun m => m N) (snd zi))) <> 0).
      { clear A. induction comps as [|c comps IHc]; [left; intros ? []|]. destruct IHc as [B|[c' [B1 B2]]]; [intros a Ha; apply INC; now right| |].
        - destruct (HC c (INC c (or_introl eq_refl))) as [[_ [H2 _]] [B' _]]. destruct (H2 (map (fun m => m N) (snd zi))) as [v Ev]; [rewrite map_length; lia|].
          destruct (feq_dec F v 0) as [->|NZ]; [left|right].
          + intros c' [<-|Hc']; auto.
          + exists c. split; [now left|]. now rewrite Ev.
        - right. exists c'. split; auto. now right. }
      destruct X as [X|[c [X1 X2]]].
      - left. intros c x Hc Hx. destruct (Nat.eq_dec x N) as [->|]; auto. apply A; auto; lia.
      - right. exists c, N. repeat split; auto. }
    destruct (D _ (fun x H => H) _ (Nat.le_refl _)) as [A|[c [x [Hc [Hx NZ]]]]]; [exfalso; apply NT; exact A|].
    exists c, (x mod 2 ^ k)%nat, (x / 2 ^ k)%nat. pose proof (pow_pos' k) as PP. split; auto. split; [apply Nat.mod_upper_bound; lia|]. split.
    - destruct (Nat.le_gt_cases k (zc_n (fst zi))) as [G|G].
      + apply Nat.div_lt_upper_bound; [lia|]. rewrite <- Nat.pow_add_r. replace (k + (zc_n (fst zi) - k))%nat with (zc_n (fst zi)) by lia. auto.
      + replace (zc_n (fst zi) - k)%nat with 0%nat by lia. rewrite Nat.div_small; [cbn; lia|]. eapply Nat.lt_le_trans; [exact Hx|].
        apply Nat.pow_le_mono_r; lia.
    - unfold slice_value, slice. rewrite Nat.add_comm, <- Nat.div_mod by lia. rewrite Nat.mod_small by auto. exact NZ.
  Qed.

  Lemma false_reduced r u0 c zi : zinst_ok zi -> In c (zc_comps (fst zi)) -> (u0 < 2 ^ k)%nat ->
    (zc_n (fst zi) - k <= length r)%nat ->
    mle (slice_value zi c u0) (lastn (zc_n (fst zi) - k) r) <> 0 -> ~ claim_true (reduced r (at_z (nth u0 low 0) zi)).
  Proof.
    intros OK Hc Hu LR NZ T. rewrite reduced_true in T by now apply at_z_ok. apply NZ.
    specialize (T (c, 0)). cbn [at_z fst snd zred cl_sums cl_n] in T.
    symmetry. rewrite T; [|apply in_map_iff; eauto]. unfold mle. rewrite lastn_length, Nat.min_l by auto.
    apply sumn_ext. intros y Hy. f_equal. f_equal. unfold slice_value. f_equal. rewrite map_map. f_equal. apply map_ext. intros m. now rewrite at_point.
  Qed.

  (* ---------------------------------------------------------------- *)
  (** the reduction of univariatized evaluations *)
Lemma reduction_claim_ok (evals : list (list F)) : let all := concat evals in let m := length all in
    exists sums, reduction_claim k evals = Ok (mkClaim k (m + 1) sums) /\ length sums = m /\
      forall i, (i < m)%nat -> let cs := nth i sums (bivariate_product, 0) in
        snd cs = nth i all 0 /\ comp_ok (fst cs) /\ c_nv (fst cs) = (m + 1)%nat /\ c_deg (fst cs) = 2%nat /\
        forall q, length q = (m + 1)%nat -> c_eval (fst cs) q = Ok (nth i q 0 * nth m q 0).
  Proof.
    cbv zeta. unfold reduction_claim. set (all := concat evals). set (m := length all).
    set (ic := fun i => match index_comp (m + 1) [i; m] bivariate_product with Ok c => c | _ => bivariate_product (F := F) end).
    assert (IC : forall i, (i < m)%nat -> index_comp (m + 1) [i; m] bivariate_product = Ok (ic i)).
    { intros i Hi. unfold ic. assert (X : exists c, index_comp (F := F) (m + 1) [i; m] bivariate_product = Ok c).
      { unfold index_comp. destruct (existsb _ _) eqn:EX; [|eauto]. exfalso. apply existsb_exists in EX as [j [Hj EX]]. apply Nat.leb_le in EX.
        destruct Hj as [<-|[<-|[]]]; lia. }
      destruct X as [c ->]. reflexivity. }
    set (sums := map (fun ie => (ic (fst ie), snd ie)) (combine (seq 0 m) all)).
    assert (LS : length sums = m) by (unfold sums; rewrite map_length, combine_length, seq_length; fold m; lia).
    exists sums.
    rewrite (collect_res_ok _ sums).
    2:{ unfold sums. rewrite map_map. apply map_ext_in. intros ie Hie. apply In_nth with (d := (0%nat, 0)) in Hie. destruct Hie as [j [Hj <-]].
        rewrite combine_length, seq_length in Hj. fold m in Hj. rewrite combine_nth by (rewrite seq_length; reflexivity). cbn [fst snd].
        rewrite seq_nth by lia. cbn [Nat.add]. rewrite IC by lia. reflexivity. }
    cbn [rbind].
    assert (P : forall i, (i < m)%nat -> let cs := nth i sums (bivariate_product, 0) in
        snd cs = nth i all 0 /\ comp_ok (fst cs) /\ c_nv (fst cs) = (m + 1)%nat /\ c_deg (fst cs) = 2%nat /\
        forall q, length q = (m + 1)%nat -> c_eval (fst cs) q = Ok (nth i q 0 * nth m q 0)).
    { intros i Hi. cbv zeta. unfold sums. rewrite (nth_map_lt _ _ _ _ (0%nat, 0)) by (rewrite combine_length, seq_length; fold m; lia).
      rewrite combine_nth by (rewrite seq_length; reflexivity). rewrite seq_nth by lia. cbn [fst snd Nat.add].
      destruct (index_comp_ok F (m + 1) [i; m] bivariate_product _ (bivariate_product_ok F) eq_refl (IC _ Hi)) as [A [B [C D]]].
      repeat (split; [solve [auto]|]). intros q Hq. rewrite D by auto. reflexivity. }
    split; [|split; [exact LS|exact P]].
    unfold claim_new. destruct (existsb _ _) eqn:EX; [|reflexivity]. exfalso. apply existsb_exists in EX as [cs [Hcs EX]].
    apply In_nth with (d := (bivariate_product, 0)) in Hcs. destruct Hcs as [i [Hi <-]]. rewrite LS in Hi.
    destruct (P i Hi) as [_ [_ [B _]]]. rewrite B, Nat.eqb_refl in EX. discriminate.
  Qed.

  Definition all_tables (zis : list (zinst F)) (unsk : list F) : list (nat -> F) :=
    concat (map (fun zi => map (fun m u => mle (slice (zc_n (fst zi)) m u) (lastn (zc_n (fst zi) - k) unsk)) (snd zi)) zis).

  Lemma mle_sumn n (w : nat -> F) (g : nat -> nat -> F) q : mle (fun y => sumn n (fun u => w u * g u y)) q = sumn n (fun u => w u * mle (g u) q).
  Proof.
    unfold mle. transitivity (sumn (2 ^ length q) (fun y => sumn n (fun u => w u * (g u y * eqw q y)))).
    - apply sumn_ext. intros y _. transitivity (eqw q y * sumn n (fun u => w u * g u y)); [ring|]. rewrite <- sumn_scale.
      apply sumn_ext. intros; ring.
    - rewrite sumn_swap. apply sumn_ext. intros u _. now rewrite sumn_scale.
  Qed.

  Lemma univariatized z (zis : list (zinst F)) unsk :
    concat (map (fun i => mvals i (lastn (cl_n (fst i)) unsk)) (map (at_z z) zis)) =
    map (fun A => sumn (2 ^ k) (fun u => A u * lag F low u z)) (all_tables zis unsk).
  Proof.
    unfold all_tables. rewrite concat_map, !map_map. f_equal. apply map_ext. intros zi. unfold mvals. cbn [at_z fst snd zred cl_n].
    rewrite !map_map. apply map_ext. intros m. rewrite (mle_sumn (2 ^ k) (fun u => lag F low u z) (slice (zc_n (fst zi)) m)).
    apply sumn_ext. intros; ring.
  Qed.

  Lemma concat_inj {A B} (f : A -> list B) (l : list A) (m : list (list B)) : Forall2 (fun a b => length b = length (f a)) l m ->
    concat m = concat (map f l) -> m = map f l.
  Proof.
    induction 1 as [|a b l m H _ IH]; cbn [concat map]; intros E; [reflexivity|].
    assert (EB : b = f a).
    { transitivity (firstn (length b) (b ++ concat m)); [rewrite firstn_app, Nat.sub_diag, firstn_O, app_nil_r, firstn_all; reflexivity|].
      rewrite E, H, firstn_app, Nat.sub_diag, firstn_O, app_nil_r, firstn_all. reflexivity. }
    rewrite EB in E. apply app_inv_head in E. rewrite (IH E). now rewrite EB.
  Qed.

  Lemma tables_length (zis : list (zinst F)) unsk (evals : list (list F)) : Forall zinst_ok zis ->
    Forall2 (fun zi e => length e = zc_m (fst zi)) zis evals -> length (all_tables zis unsk) = length (concat evals).
  Proof.
    intros OK H. unfold all_tables. induction H as [|zi e zis evals L _ IH]; [reflexivity|]. apply Forall_cons_iff in OK as [[A _] OK].
    cbn [map concat]. rewrite !app_length, IH, map_length by auto. congruence.
  Qed.

  Definition red_inst (c : claim F) z (zis : list (zinst F)) (unsk : list F) : inst F := (c, all_tables zis unsk ++ [fun u => lag F low u z]).

  Lemma red_inst_ok c z zis unsk evals : Forall zinst_ok zis -> Forall2 (fun zi e => length e = zc_m (fst zi)) zis evals ->
    reduction_claim k evals = Ok c -> inst_ok (red_inst c z zis unsk).
  Proof.
    intros OK SH EC. destruct (reduction_claim_ok evals) as [sums [E [LS P]]]. rewrite E in EC. injection EC as <-.
    split; cbn [red_inst fst snd cl_m cl_sums].
    - rewrite app_length, (tables_length _ _ _ OK SH). reflexivity.
    - intros cs Hcs. apply In_nth with (d := (bivariate_product, 0)) in Hcs. destruct Hcs as [i [Hi <-]]. rewrite LS in Hi.
      destruct (P i Hi) as [_ [A [B _]]]. auto.
  Qed.

  Lemma red_inst_true c z (zis : list (zinst F)) unsk evals : Forall zinst_ok zis -> Forall2 (fun zi e => length e = zc_m (fst zi)) zis evals ->
    reduction_claim k evals = Ok c ->
    (claim_true (red_inst c z zis unsk) <-> truthful_last (map (at_z z) zis) (unsk, evals)).
  Proof.
    intros OK SH EC. destruct (reduction_claim_ok evals) as [sums [E [LS P]]]. rewrite E in EC. injection EC as <-.
    pose proof (tables_length zis unsk evals OK SH) as TL.
    assert (TS : forall i, (i < length (concat evals))%nat ->
      true_sum (fst (nth i sums (bivariate_product, 0))) k (all_tables zis unsk ++ [fun u => lag F low u z]) =
      sumn (2 ^ k) (fun u => nth i (all_tables zis unsk) (fun _ => 0) u * lag F low u z)).
    { intros i Hi. destruct (P i Hi) as [_ [_ [_ [_ EV]]]]. unfold true_sum. apply sumn_ext. intros u _.
      rewrite EV by (rewrite map_length, app_length; cbn; lia). cbn [val]. rewrite map_app. cbn [map].
      rewrite app_nth1 by (rewrite map_length; lia). rewrite app_nth2 by (rewrite map_length; lia).
      rewrite map_length, TL, Nat.sub_diag. cbn [nth]. f_equal. now rewrite (nth_map_lt _ _ _ _ (fun _ => 0)) by lia. }
    assert (EQ : claim_true (red_inst (mkClaim k (length (concat evals) + 1) sums) z zis unsk) <->
      concat evals = map (fun A => sumn (2 ^ k) (fun u => A u * lag F low u z)) (all_tables zis unsk)).
    { unfold claim_true. cbn [red_inst fst snd cl_sums cl_n]. split.
      - intros H. apply nth_ext with (d := 0) (d' := 0); [rewrite map_length; lia|]. intros i Hi.
        rewrite (nth_map_lt _ _ _ _ (fun _ => 0)) by lia. rewrite <- TS by auto. rewrite <- H by (apply nth_In; lia).
        symmetry. apply (P i Hi).
      - intros H cs Hcs. apply In_nth with (d := (bivariate_product, 0)) in Hcs. destruct Hcs as [i [Hi <-]]. rewrite LS in Hi.
        rewrite TS by auto. destruct (P i Hi) as [-> _]. rewrite H. now rewrite (nth_map_lt _ _ _ _ (fun _ => 0)) by lia. }
    rewrite EQ, <- univariatized. unfold truthful_last. cbn [fst snd]. split; [|now intros ->].
    apply concat_inj. clear - SH OK. rewrite <- (map_id evals). 
    induction SH as [|zi e zis evals L SH IH]; cbn [map]; [constructor|]. apply Forall_cons_iff in OK as [[A _] OK]. constructor; auto.
    unfold mvals. cbn [at_z snd]. now rewrite !map_length, L, A.
  Qed.

  (** at the skipped challenges *)
  Lemma tables_at N (zis : list (zinst F)) unsk sk : length sk = k -> length unsk = (N - k)%nat -> (k <= N)%nat ->
    (forall zi, In zi zis -> (zc_n (fst zi) <= N)%nat) ->
    map (fun A => mle A sk) (all_tables zis unsk) = concat (map (fun zi => map (fun m => mle m (zpoint sk unsk (zc_n (fst zi)))) (snd zi)) zis).
  Proof.
    intros LS LU KN HN. unfold all_tables. rewrite concat_map, map_map. f_equal. apply map_ext_in. intros zi Hzi. rewrite map_map. apply map_ext.
    intros m. specialize (HN zi Hzi). unfold zpoint. set (n := zc_n (fst zi)) in *. rewrite LS.
    pose proof (pow_pos' n) as PN.
    destruct (Nat.le_gt_cases k n) as [G|G].
    - rewrite firstn_all2 by lia. rewrite mle_app_high. apply mle_ext. intros u Hu. apply mle_ext. intros y Hy.
      rewrite lastn_length, LU, Nat.min_l in Hy by lia. rewrite LS in *. unfold slice. rewrite Nat.mod_small; [reflexivity|].
      assert (2 ^ n = 2 ^ k * 2 ^ (n - k))%nat as -> by (rewrite <- Nat.pow_add_r; f_equal; lia). assert (2 ^ k * (y + 1) <= 2 ^ k * 2 ^ (n - k))%nat; [|lia].
      apply Nat.mul_le_mono_l. lia.
    - replace (n - k)%nat with 0%nat by lia. replace (lastn 0 unsk) with (@nil F) by (unfold lastn; now rewrite Nat.sub_0_r, skipn_all).
      rewrite app_nil_r. rewrite <- (firstn_skipn n sk) at 1. rewrite mle_app_high. apply mle_ext. intros x Hx.
      rewrite firstn_length, Nat.min_l in * by lia. apply mle_const. intros y _. rewrite mle_nil. unfold slice.
      rewrite Nat.mul_0_r, Nat.add_0_r. rewrite Nat.mul_comm, Nat.mod_add by lia. now rewrite Nat.mod_small.
  Qed.

  (** the second output check *)
  Lemma reduction_output bc bk c z chal evals rout : sub_with_dim bc k = Ok bk -> low = sub_iter bk ->
    verify_reduction_output bc c k z (chal, evals) = Ok rout ->
    length chal = k /\ exists e x, evals = [e ++ [x]] /\ x = mle (fun u => lag F low u z) chal /\ rout = (chal, [e]).
  Proof.
    intros HB HL. unfold verify_reduction_output. destruct (cl_n c =? k)%nat; cbn [negb]; [|discriminate].
    destruct (Nat.eqb_spec (length chal) k) as [LC|]; cbn [negb orb]; [|discriminate].
    destruct (Nat.eqb_spec (length evals) 1) as [LE|]; cbn [negb orb]; [|discriminate].
    unfold sub_points. rewrite HB. cbn [rbind]. rewrite <- HL.
    destruct (proj1 (from_points_correct F low false) low_nodup) as [d [ED _]]. rewrite ED. cbn [rbind].
    destruct (lagrange_evals_ok F low false d z ED) as [l [EL [LL NL]]]. unfold lagrange_mle. rewrite EL. cbn [of_opt rbind].
    rewrite LL, low_len. assert (P2 : is_pow2 (2 ^ k) = true).
    { unfold is_pow2. rewrite Nat.log2_pow2 by lia. rewrite Nat.eqb_refl, andb_true_r. apply Nat.ltb_lt. pose proof (pow_pos' k). lia. }
    rewrite P2, Nat.log2_pow2 by lia.
    pose proof (me_new_correct F 0 k l (2 ^ k)%nat) as ME. rewrite Nat.mul_1_r, Nat.sub_0_r, Nat.eqb_refl in ME.
    destruct ME as [-> WF]; [lia|]. cbn [rbind].
    destruct (query_expand_correct F 0 chal) as [q [-> QH]]. cbn [rbind].
    rewrite (evaluate_correct F 0 0 _ _ q chal WF QH). cbn [me_mu]. rewrite LC, Nat.eqb_refl. cbn [rbind].
    destruct evals as [|e [|]]; cbn in LE; try discriminate.
    destruct (rev e) as [|x re] eqn:RE; [discriminate|].
    assert (EE : e = rev re ++ [x]) by (rewrite <- (rev_involutive e), RE; reflexivity).
    destruct (feqb_spec F x (mle (table (mkMle k l)) chal)) as [EX|]; cbn [negb]; [|discriminate].
    intros H. injection H as <-. split; [reflexivity|]. exists (rev re), x. rewrite EE. split; [reflexivity|].
    split; [|now rewrite removelast_last]. rewrite EX. apply mle_ext. intros u Hu. unfold table. cbn [me_evals].
    apply NL. rewrite low_len. now rewrite LC in Hu.
  Qed.

  Lemma peval_nonzero (c : list F) x : peval c x <> 0 -> exists i, nth i c 0 <> 0.
  Proof.
    induction c as [|a c IH]; intros H; [exfalso; now apply H|]. destruct (feq_dec F a 0) as [->|NZ]; [|exists 0%nat; exact NZ].
    destruct IH as [i Hi]; [|exists (S i); exact Hi]. intros E. apply H. rewrite peval_cons, E. ring.
  Qed.

  Definition n_z (zis : list (zinst F)) : nat := last (map zc_n (map fst zis)) 0%nat.
  Definition z_composites (zis : list (zinst F)) : nat := list_sum (map (fun zi : zinst F => length (zc_comps (fst zi))) zis).
  Definition z_multilinears (zis : list (zinst F)) : nat := list_sum (map (fun zi : zinst F => zc_m (fst zi)) zis).
  Definition z_max_degree (zis : list (zinst F)) : nat := fold_right Nat.max 0%nat (map (fun zi : zinst F => z_degree (fst zi)) zis).


  Lemma deg_bound zi (c : comp F) : In c (zc_comps (fst (zi : zinst F))) -> (c_deg c <= z_degree (fst zi))%nat.
  Proof. unfold z_degree. induction (zc_comps (fst zi)) as [|a l IH]; intros []; cbn [map fold_right]; [subst; lia|specialize (IH H); lia]. Qed.

  Lemma fold_max_le {A} (f : A -> nat) l x : In x l -> (f x <= fold_right Nat.max 0 (map f l))%nat.
  Proof. induction l as [|a l IH]; intros []; cbn [map fold_right]; [subst; lia|specialize (IH H); lia]. Qed.
  Lemma fold_max_ub {A} (f : A -> nat) l b : (forall x, In x l -> f x <= b)%nat -> (fold_right Nat.max 0 (map f l) <= b)%nat.
  Proof. induction l as [|a l IH]; intros H; cbn [map fold_right]; [lia|]. pose proof (H a (or_introl eq_refl)). assert (fold_right Nat.max 0%nat (map f l) <= b)%nat by (apply IH; intros; apply H; now right). lia. Qed.

  Lemma size_ge (zis : list (zinst F)) zi c : In zi zis -> In c (zc_comps (fst zi)) -> (c_deg c * 2 ^ k <= max_domain_size (map fst zis) k)%nat.
  Proof.
    intros Hz Hc. unfold max_domain_size. rewrite map_map.
    transitivity (domain_size (z_degree (fst zi)) k); [unfold domain_size; apply Nat.mul_le_mono_r; now apply deg_bound|].
    now apply (fold_max_le (fun x : zinst F => domain_size (z_degree (fst x)) k)).
  Qed.
  Lemma size_pos (zis : list (zinst F)) : max_domain_size (map fst zis) k = 0%nat \/ (2 ^ k <= max_domain_size (map fst zis) k)%nat.
  Proof.
    unfold max_domain_size. induction zis as [|zi zis IH]; cbn [map fold_right]; [now left|]. unfold domain_size at 1 3.
    destruct (z_degree (fst zi)) as [|d]; [cbn [Nat.mul]; lia|]. right. cbn [Nat.mul]. lia.
  Qed.


  (** the polynomial sent by the prover *)
  Definition sent (pts evals : list F) (zeros : nat) (z : F) : F :=
    sumn (length evals) (fun i => nth i evals 0 * lag F pts (zeros + i) z).

  Lemma inner_sent (pts evals l : list F) zeros z : (zeros + length evals = length pts)%nat -> length l = length pts ->
    (forall i, (i < length pts)%nat -> nth i l 0 = lag F pts i z) ->
    inner_product_unchecked evals (skipn zeros l) = sent pts evals zeros z.
  Proof.
    intros L1 L2 H. unfold inner_product_unchecked, sent. rewrite (fsum_nth F), map_length, combine_length, skipn_length.
    replace (Nat.min (length evals) (length l - zeros)) with (length evals) by lia.
    apply sumn_ext. intros i Hi. rewrite (nth_map_lt _ _ _ _ (0, 0)) by (rewrite combine_length, skipn_length; lia).
    rewrite combine_nth by (rewrite skipn_length; lia). cbn [fst snd]. rewrite nth_skipn', H by lia. reflexivity.
  Qed.

  Lemma sent_poly pts evals zeros : (zeros + length evals = length pts)%nat -> is_poly (length pts) (sent pts evals zeros).
  Proof.
    intros L. unfold sent. apply (is_poly_sumn F (length pts) (length evals) (fun i z => nth i evals 0 * lag F pts (zeros + i) z)).
    intros i Hi. apply is_poly_scale. apply lag_poly. lia.
  Qed.

  Lemma sent_low pts evals zeros u : NoDup pts -> (zeros + length evals = length pts)%nat -> (u < zeros)%nat -> sent pts evals zeros (nth u pts 0) = 0.
  Proof.
    intros ND L Hu. unfold sent. rewrite (sumn_ext F _ _ (fun _ => 0)); [apply sumn_zero; auto|]. intros i Hi.
    destruct (proj1 (from_points_correct F pts false) ND) as [d [E _]]. destruct (from_points_weights F _ _ _ E) as [_ [_ [_ [_ NZ]]]].
    rewrite lag_point by (auto; lia). rewrite (proj2 (Nat.eqb_neq _ _)) by lia. ring.
  Qed.

  Lemma zero_claim_sum r z zi a : claim_sum a (fst (reduced r (at_z z zi))) = 0.
  Proof.
    unfold claim_sum. cbn [reduced fst reduced_claim at_z zred cl_sums]. rewrite !map_map. cbn [fst snd].
    rewrite weighted_peval. replace (peval (map (fun _ : comp F => 0) (zc_comps (fst zi))) a) with (0 : F); [ring|].
    induction (zc_comps (fst zi)) as [|c l IH]; cbn [map]; [reflexivity|]. rewrite peval_cons, <- IH. ring.
  Qed.

  Lemma zero_claim_sums r z (zis : list (zinst F)) coeffs :
    fsum (map (fun ca : claim F * F => claim_sum (snd ca) (fst ca)) (combine (map fst (map (reduced r) (map (at_z z) zis))) coeffs)) = 0.
  Proof.
    revert coeffs. induction zis as [|zi zis IH]; intros [|a coeffs]; try reflexivity. cbn [map combine fsum]. cbn [fst snd].
    rewrite IH, zero_claim_sum. ring.
  Qed.

  Lemma zerocheck_sound bc bk (zis : list (zinst F)) :
    (forall e b, sub_with_dim bc e = Ok b -> lin_indep b) -> sub_with_dim bc k = Ok bk -> low = sub_iter bk ->
    (log2_ceil (max_domain_size (map fst zis) k) <= usize_bits)%nat ->
    Forall zinst_ok zis -> (exists zi, In zi zis /\ ~ zero_true zi) ->
    sound (fun out => ~ zero_truthful zis out)
      ((n_z zis - k) + (z_composites zis + ((max_domain_size (map fst zis) k - 1) +
        ((n_z zis - k) * (1 + z_max_degree zis) + (z_multilinears zis + k * 2)))))
      (zerocheck_verify bc (map fst zis) k).
  Proof.
    intros LI HB HL LU OKS [zi [Hzi BAD]]. unfold zerocheck_verify.
    destruct (is_sorted_ascending (map zc_n (map fst zis))) eqn:SA; cbn [negb]; [|constructor].
    apply sorted_asc in SA. fold (n_z zis). destruct (Nat.ltb_spec (n_z zis) k) as [|KN]; [constructor|].
    set (N := n_z zis) in *. set (size := max_domain_size (map fst zis) k) in *.
    assert (HN : forall z, In z zis -> (zc_n (fst z) <= N)%nat).
    { intros z Hz. unfold N, n_z. apply last_max; auto. apply in_map. now apply in_map. }
    rewrite Forall_forall in OKS. pose proof (OKS zi Hzi) as OKi.
    destruct (false_at_point zi OKi BAD) as [c [u0 [y [Hc [Hu [Hy NZ]]]]]].
    pose proof (HN zi Hzi) as HNi.
    apply (sample_point_sound F _ _ (N - k) (zc_n (fst zi) - k) (slice_value zi c u0)); [lia|eauto|].
    intros r LR NZ'. assert (BR : ~ claim_true (reduced r (at_z (nth u0 low 0) zi))) by (eapply false_reduced; eauto; lia).
    set (insts := fun z => map (at_z z) zis).
    assert (OKI : forall z, Forall inst_ok (map (reduced r) (insts z))).
    { intros z. apply Forall_forall. intros x Hx. apply in_map_iff in Hx as [j [<- Hj]]. apply reduced_ok.
      apply in_map_iff in Hj as [w [<- Hw]]. apply at_z_ok; auto. }
    assert (NEI : forall z i, In i (insts z) -> cl_sums (fst i) <> []).
    { intros z i Hi. apply in_map_iff in Hi as [w [<- Hw]]. cbn [at_z fst zred cl_sums]. destruct (OKS w Hw) as [_ [NE _]].
      destruct (zc_comps (fst w)); [congruence|discriminate]. }
    assert (SD : forall z, some_degree (map (reduced r) (insts z))) by (intros z; apply reduced_some_degree; apply NEI).
    assert (LZ : length (map fst zis) = length (map (reduced r) (insts (nth u0 low 0)))) by (unfold insts; now rewrite !map_length).
    rewrite LZ. clear LZ.
    replace (z_composites zis) with (n_composites (map (reduced r) (insts (nth u0 low 0)))).
    2:{ unfold n_composites, z_composites, insts. rewrite !map_map. f_equal. apply map_ext. intros w. cbn [reduced fst reduced_claim at_z zred cl_sums].
        now rewrite !map_length. }
    apply (vsamples_sound F HighToLow (map (reduced r) (insts (nth u0 low 0)))) with (s := 0) (t := 0); [apply SD| |].
    { right. exists (reduced r (at_z (nth u0 low 0) zi)). split; [apply in_map; now apply in_map|exact BR]. }
    intros coeffs LC NE. unfold insts in NE at 1. rewrite zero_claim_sums in NE.
    set (P := fun z => weighted_true_sums (map (reduced r) (insts z)) coeffs).
    assert (NP : P (nth u0 low 0) <> 0).
    { unfold P. rewrite (weighted_TF F HighToLow). unfold TF. cbn [length]. intros E. apply NE.
      f_equal. symmetry. etransitivity; [|exact E]. f_equal. apply map_ext. intros ia. now rewrite Nat.sub_0_r. }
    clear NE. set (zeros := Nat.min (2 ^ k) size).
    apply sound_bind_read. intros evals LE.
    assert (NONE : at_most (size - 1) (fun _ : F => false)).
    { intros l _ H. destruct l as [|a l]; [cbn; lia|discriminate (H a (or_introl eq_refl))]. }
    destruct (sub_points bc (log2_ceil size)) as [pts| |] eqn:EP;
      [|apply (sound_bind_sample F _ _ _ (fun _ => false) _ NONE); intros; constructor..].
    destruct (from_points (firstn size pts) false) as [d| |] eqn:ED;
      [|apply (sound_bind_sample F _ _ _ (fun _ => false) _ NONE); intros; cbn [vbind]; rewrite ED; constructor..].
    clear NONE.
    unfold sub_points in EP. destruct (sub_with_dim bc (log2_ceil size)) as [bd| |] eqn:EB; cbn [rbind] in EP; try discriminate. injection EP as <-.
    pose proof (with_dim_length F _ _ _ EB) as LD.
    destruct (subspace_iter_nodup F CH bd (LI _ _ EB)) as [NDp LP]; [lia|]. rewrite LD in LP.
    set (D := firstn size (sub_iter bd)) in *.
    assert (LenD : length D = size).
    { unfold D. rewrite firstn_length, LP. pose proof (log2_ceil_le size). lia. }
    assert (NDD : NoDup D) by (destruct (from_points_weights F _ _ _ ED) as [ND _]; exact ND).
    assert (ZE : (zeros + length evals = length D)%nat) by (unfold zeros in *; lia).
    assert (S0 : sent D evals zeros (nth u0 low 0) = 0).
    { destruct (size_pos zis) as [Z|Z]; fold size in Z.
      - unfold sent. replace (length evals) with 0%nat by (unfold zeros in *; lia). reflexivity.
      - replace (nth u0 low 0) with (nth u0 D 0); [apply sent_low; auto; unfold zeros; lia|].
        rewrite HL, <- (points_prefix F CH bc k (log2_ceil size) bk bd LI (log2_ceil_ge _ _ Z) LU HB EB).
        unfold D. rewrite !nth_firstn_lt by lia. reflexivity. }
    assert (HP : is_poly (S (size - 1)) (fun z => sent D evals zeros z + (- (1)) * P z)).
    { apply is_poly_add; [apply is_poly_le with (n := length D); [lia|]; now apply sent_poly|].
      apply is_poly_scale. apply batched_poly; [now apply Forall_forall| |lia]. intros w cc Hw Hcc. pose proof (size_ge zis w cc Hw Hcc) as H. fold size in H. lia. }
    destruct HP as [cs [LCS ECS]].
    apply (sound_bind_sample F _ (size - 1) _ (fun z => feqb (peval cs z) 0)).
    { apply roots_at_most; [exact LCS|]. apply (peval_nonzero cs (nth u0 low 0)). rewrite <- ECS, S0. intros E. apply NP. transitivity (- (0 + - (1) * P (nth u0 low 0)) : F); [ring|]. rewrite E. ring. }
    intros z Hz. change (vbind (VRet (Ok ?x)) ?f) with (f x). cbv beta. fold D. rewrite ED. change (vbind (VRet (Ok ?x)) ?f) with (f x). cbv beta.
    destruct (lagrange_evals_ok F D false d z ED) as [l [EL [LL NL]]]. rewrite EL. cbn [of_opt]. change (vbind (VRet (Ok ?x)) ?f) with (f x). cbv beta.
    destruct (Nat.ltb_spec (length l) zeros) as [|_]; [constructor|]. rewrite (inner_sent D evals l zeros z ZE LL NL).
    assert (NS : sent D evals zeros z <> P z).
    { intros E. apply (proj1 (feqb_false F _ _) Hz). rewrite <- ECS, E. ring. }
    rewrite (reduce_eq_ind_ok zis); [|now apply Forall_forall|exact SA]. change (vbind (VRet (Ok ?x)) ?f) with (f x). cbv beta.
    replace (map zred (map fst zis)) with (map fst (insts z)) by (unfold insts; rewrite !map_map; reflexivity).
    rewrite reduce_to_regular_spec by (apply Forall_forall; intros i Hi; apply in_map_iff in Hi as [w [<- Hw]]; apply at_z_ok; auto).
    change (vbind (VRet (Ok ?x)) ?f) with (f x). cbv beta.
    replace (map reduced_claim (map fst (insts z))) with (map fst (map (reduced r) (insts z))) by (rewrite !map_map; reflexivity).
    apply sound_bind0. intros v EV.
    assert (MV : (max_vars (map (reduced r) (insts z)) <= N - k)%nat).
    { unfold max_vars, insts. rewrite !map_map. apply fold_max_ub. intros w Hw. cbn [reduced fst reduced_claim at_z zred cl_n]. specialize (HN w Hw). lia. }
    assert (MD : (max_degree (map (reduced r) (insts z)) <= 1 + z_max_degree zis)%nat).
    { unfold max_degree, insts. rewrite !map_map. apply fold_max_ub. intros w Hw. unfold max_individual_degree. cbn [reduced fst reduced_claim at_z zred cl_sums].
      rewrite !map_map. cbn [fst extra_product c_deg]. transitivity (1 + z_degree (fst w))%nat.
      - apply (fold_max_ub (fun x : comp F => (c_deg x + 1)%nat)). intros x Hx. apply deg_bound in Hx. lia.
      - apply le_n_S. now apply (fold_max_le (fun zi : zinst F => z_degree (fst zi))). }
    eapply sound_bind with (good1 := fun out => ~ truthful_front HighToLow (map (reduced r) (insts z)) out).
    { eapply sound_mono; [apply (front_loaded_prebatched_sound F HighToLow _ coeffs (sent D evals zeros z) v (OKI z) (SD z) EV NS)| |auto].
      now apply Nat.mul_le_mono. }
    intros [chal es] NT. cbn [fst snd]. apply sound_bind0. intros [unsk evs] EO.
    pose proof (verify_outputs_len _ _ _ _ _ _ _ EO) as LCH. rewrite rev_length in LCH.
    assert (HNI : forall i, In i (insts z) -> (cl_n (fst i) <= length chal)%nat).
    { intros i Hi. apply in_map_iff in Hi as [w [<- Hw]]. cbn [at_z fst zred cl_n]. specialize (HN w Hw). lia. }
    assert (NTL : ~ truthful_last (insts z) (unsk, evs)).
    { intros T. apply NT. pose proof EO as EO'. apply outputs_truthful in EO'; [|intros; rewrite rev_length; auto|exact T].
      unfold truthful_front. cbn [fst snd]. rewrite EO', map_map. apply map_ext_in. intros j Hj. f_equal. symmetry.
      apply (prefix_lastn F HighToLow (insts z) j chal (length chal)); auto. exact I. }
    assert (SH : Forall2 (fun zi e => length e = zc_m (fst zi)) zis evs /\ length unsk = (N - k)%nat).
    { apply verify_outputs_spec in EO.
      2:{ intros cl Hcl. apply in_map_iff in Hcl as [i [<- Hi]]. rewrite rev_length. auto. }
      destruct EO as [_ [LES [_ [FA E]]]]. injection E as -> ->. split; [|rewrite rev_length; lia].
      clear - FA LES. unfold insts in *. rewrite !map_map, map_length in *. cbn [at_z fst] in *. revert es FA LES.
      induction zis as [|w ws IH]; intros [|e es] FA LES; cbn in LES; try lia; cbn [map combine] in *; constructor.
      - apply Forall_inv in FA as [FA _]. cbn [snd fst zred cl_m] in FA. destruct e as [|a e]; [cbn in FA; lia|].
        pose proof (app_removelast_last 0 (l := a :: e) ltac:(discriminate)) as E. apply (f_equal (@length F)) in E. rewrite app_length, FA in E. cbn [length] in E. lia.
      - apply IH; [now apply Forall_inv_tail in FA|lia]. }
    destruct SH as [SH LUN]. cbn [fst snd]. apply sound_bind0. intros red ER.
    assert (OKF : Forall zinst_ok zis) by now apply Forall_forall.
    pose proof (red_inst_ok red z zis unsk evs OKF SH ER) as ROK.
    pose proof (red_inst_true red z zis unsk evs OKF SH ER) as RT.
    assert (NRT : ~ claim_true (red_inst red z zis unsk)) by (rewrite RT; exact NTL).
    destruct (reduction_claim_ok evs) as [sums [ER' [LSU PS]]]. rewrite ER in ER'. injection ER' as ->.
    set (m := length (concat evs)) in *.
    assert (LM : m = z_multilinears zis).
    { unfold m, z_multilinears, list_sum. clear - SH. induction SH as [|w e ws evs L _ IH]; cbn [concat map fold_right]; [reflexivity|]. now rewrite app_length, IH, L. }
    assert (MP : (0 < m)%nat).
    { destruct m; [|lia]. exfalso. apply NRT. unfold claim_true. cbn [red_inst fst snd cl_sums]. destruct sums; [intros ? []|discriminate]. }
    assert (DG : max_individual_degree (mkClaim k (m + 1) sums) = 2%nat).
    { unfold max_individual_degree. cbn [cl_sums]. apply Nat.le_antisymm.
      - apply (fold_max_ub (fun cs : comp F * F => c_deg (fst cs))). intros x Hx. apply In_nth with (d := (bivariate_product, 0)) in Hx. destruct Hx as [i [Hi <-]].
        rewrite LSU in Hi. destruct (PS i Hi) as [_ [_ [_ [-> _]]]]. lia.
      - destruct (PS 0%nat MP) as [_ [_ [_ [<- _]]]]. apply (fold_max_le (fun cs : comp F * F => c_deg (fst cs))). apply nth_In. lia. }
    set (ri := red_inst (mkClaim k (m + 1) sums) z zis unsk) in *.
    assert (S2 : sound (fun out => ~ truthful_front HighToLow [ri] out) (n_composites [ri] + max_vars [ri] * max_degree [ri])
                (get v2 <- bv_new (map fst [ri]); bv_run v2)).
    { apply front_loaded_sound; [constructor; [exact ROK|constructor]| |exists ri; split; [left; reflexivity|exact NRT]].
      right. exists ri. split; [left; reflexivity|]. split; [unfold max_vars; cbn [map fold_right]; lia|]. unfold ri. cbn [red_inst fst]. lia. }
    replace (n_composites [ri] + max_vars [ri] * max_degree [ri])%nat with (z_multilinears zis + k * 2)%nat in S2.
    2:{ unfold n_composites, max_vars, max_degree. cbn [map fold_right]. unfold ri. cbn [red_inst fst cl_n cl_sums]. rewrite DG, LSU. unfold list_sum. cbn [fold_right]. rewrite !Nat.max_0_r. lia. }
    change [mkClaim k (m + 1) sums] with (map fst [ri]).
    rewrite <- (Nat.add_0_r (z_multilinears zis + k * 2)).
    apply sound_unassoc. eapply sound_bind; [exact S2|]. intros [chal2 es2] NT2. cbn [fst snd]. apply sound_bind0. intros rout ERO.
    destruct (reduction_output bc bk _ z _ _ _ HB HL ERO) as [LC2 [e [x [Ees [Ex ->]]]]]. cbn [fst snd rev app]. constructor.
    unfold zero_truthful. intros ZT. apply NT2. unfold truthful_front. cbn [fst snd map]. rewrite Ees. f_equal. unfold mvals.
    unfold ri. cbn [red_inst fst snd cl_n prefix_point]. rewrite rev_length in LC2. rewrite firstn_all2 by lia.
    rewrite map_app. cbn [map]. f_equal; [|now rewrite Ex]. rewrite ZT. symmetry. apply (tables_at N); auto. now rewrite rev_length.
  Qed.
End Props.

Section Main.
  Variable F : field.
  Local Open Scope fld_scope.
  Add Ring Fring2 : (f_ring F).

  (** Zerocheck of claims of which one is false, with [k] skipped variables: against any strategy of the prover, of the
      vectors of [q] challenges from a set [S], at most the stated fraction of [1 / |S|] makes the verifier accept with
      evaluations that are those of the multilinears.  [bc] is any basis whose elements are independent. *)
  Theorem zerocheck_soundness (bc : nat -> option F) (k : nat) (zis : list (zinst F)) (dims : list F) :
    char2 F -> (forall e b, sub_with_dim bc e = Ok b -> lin_indep b) -> sub_with_dim bc k = Ok dims ->
    (k <= usize_bits)%nat -> (log2_ceil (max_domain_size (map fst zis) k) <= usize_bits)%nat ->
    Forall zinst_ok zis -> (exists zi, In zi zis /\ ~ zero_true zi) ->
    forall (strategy : list F -> nat -> list F) (S : list F) (q : nat) (L : list (list F)),
      NoDup S -> NoDup L ->
      (forall cs, In cs L -> length cs = q /\ incl cs S /\
         exists out, vplay (zerocheck_verify bc (map fst zis) k) strategy [] 0 cs = Ok out /\ zero_truthful zis out) ->
      (length L * length S <=
        ((n_z F zis - k) + z_composites F zis + (max_domain_size (map fst zis) k - 1) +
         (n_z F zis - k) * (1 + z_max_degree F zis) + z_multilinears F zis + k * 2) * length S ^ q)%nat.
  Proof.
    intros CH LI HB LK LU OKS BAD. apply of_sound. pose proof (with_dim_length F _ _ _ HB) as LB.
    destruct (subspace_iter_nodup F CH dims (LI _ _ HB)) as [ND LL]; [lia|]. rewrite LB in LL.
    eapply sound_mono; [apply (zerocheck_sound F CH k (sub_iter dims) LL ND bc dims zis LI HB eq_refl LU OKS BAD)|lia|auto].
  Qed.

  (** The evaluation claims made from the output: one per oracle, in order, each with its evaluation, at the point of the
      output for its number of variables. *)
  Theorem zerocheck_eval_claims {Id} (metas : list (nat * list Id)) (skipped unskipped evals : list F) :
    let ids := flat_map (fun m => map (fun id => (id, fst m)) (snd m)) metas in
    let N := last (map fst metas) 0%nat in
    match make_zerocheck_eval_claims metas (skipped, unskipped, evals) with
    | Ok claims => StronglySorted le (map fst metas) /\ length ids = length evals /\ N = (length skipped + length unskipped)%nat /\
        claims = map (fun ie => (fst (fst ie), zpoint skipped unskipped (snd (fst ie)), snd ie)) (combine ids evals) /\
        Forall (fun c => exists n, In (fst (fst c), n) ids /\ length (snd (fst c)) = n) claims
    | Err => ~ (StronglySorted le (map fst metas) /\ length ids = length evals /\ N = (length skipped + length unskipped)%nat)
    | Panic => False
    end.
  Proof.
    cbv zeta. unfold make_zerocheck_eval_claims. destruct (is_sorted_ascending (map fst metas)) eqn:SA; cbn [negb].
    2:{ intros [S _]. apply asc_sorted in S. congruence. }
    apply sorted_asc in SA. set (ids := flat_map _ metas). destruct (Nat.eqb_spec (length ids) (length evals)) as [LE|]; cbn [negb]; [|tauto].
    destruct (Nat.eqb_spec (last (map fst metas) 0%nat) (length skipped + length unskipped)) as [EN|]; cbn [negb]; [|tauto].
    assert (HN : forall id n, In (id, n) ids -> (n <= length skipped + length unskipped)%nat).
    { intros id n H. rewrite <- EN. apply in_flat_map in H as [m [Hm H]]. apply in_map_iff in H as [x [E _]]. injection E as _ <-.
      apply last_max; auto. now apply in_map. }
    assert (EQ : map (fun ie => let '(id, n, e) := ie in
         (id, firstn (Nat.min n (length skipped)) skipped ++ skipn (Nat.min (last (map fst metas) 0%nat - n) (length unskipped)) unskipped, e)) (combine ids evals) =
       map (fun ie => (fst (fst ie), zpoint skipped unskipped (snd (fst ie)), snd ie)) (combine ids evals)).
    { apply map_ext_in. intros [[id n] e] H. cbn [fst snd]. f_equal. f_equal. unfold zpoint, lastn. apply in_combine_l in H. specialize (HN _ _ H).
      rewrite EN. f_equal.
      - destruct (Nat.le_gt_cases n (length skipped)); [now rewrite Nat.min_l by auto|]. rewrite Nat.min_r by lia. now rewrite firstn_all, firstn_all2 by lia.
      - f_equal. destruct (Nat.le_gt_cases n (length skipped)); lia. }
    rewrite EQ. repeat (split; [auto|]). rewrite Forall_map. apply Forall_forall. intros [[id n] e] H. cbn [fst snd]. apply in_combine_l in H.
    exists n. split; [exact H|]. specialize (HN _ _ H). unfold zpoint. rewrite app_length, firstn_length, lastn_length. lia.
  Qed.

  Lemma product2_curve : curve_ok (product2 F).
  Proof.
    intros L ps LP FA. destruct ps as [|p [|p' [|]]]; cbn in LP; try discriminate. apply Forall_cons_iff in FA as [A FA]. apply Forall_inv in FA.
    destruct (is_poly_mul F L L (peval p) (peval p')) as [cs [LC EC]]; [exists p; auto|exists p'; auto|].
    exists cs. split; [cbn [product2 c_deg]; lia|]. intros t. cbn [map product2 c_eval]. now rewrite <- EC.
  Qed.
End Main.

(** Two multilinears with two variables whose product does not vanish on the square; one variable is skipped. *)
Definition z_false : zinst X16 :=
  (mkZ 2 2 [product2 X16], [fun x => nth x (els [3; 0; 7; 1]%N) (el 0%N); fun x => nth x (els [0; 6; 0; 2]%N) (el 0%N)]).
Definition z_true : zinst X16 :=
  (mkZ 2 2 [product2 X16], [fun x => nth x (els [3; 0; 7; 0]%N) (el 0%N); fun x => nth x (els [0; 6; 0; 2]%N) (el 0%N)]).

Example zerocheck_soundness_ex :
  char2 X16 /\ (forall e b, sub_with_dim (tower_basis_checked 2) e = Ok b -> lin_indep b) /\
  (exists dims, sub_with_dim (tower_basis_checked 2) 1 = Ok dims) /\
  (log2_ceil (max_domain_size (map fst [z_false]) 1) <= usize_bits)%nat /\
  Forall zinst_ok [z_false] /\ ~ zero_true z_false /\ zero_true z_true.
Proof.
  split; [vm_compute; reflexivity|]. split; [intros e b H; now apply (with_dim_tower 2 e)|]. split; [eexists; vm_compute; reflexivity|].
  split; [vm_compute; lia|]. split; [|split].
  - constructor; [|constructor]. split; [reflexivity|]. split; [discriminate|]. intros c [<-|[]]. split; [apply product2_ok|]. split; [reflexivity|].
    apply product2_curve.
  - intros T. specialize (T (product2 X16) 3%nat (or_introl eq_refl) ltac:(vm_compute; lia)).
    apply (f_equal (fun r => match r with Ok x => bits x | _ => 7%N end)) in T. vm_compute in T. discriminate T.
  - intros c x [<-|[]] Hx. cbn in Hx. destruct x as [|[|[|[|x]]]]; [vm_compute; reflexivity..|lia].
Qed.
