(** Proof of the soundness of the evalcheck verifier: the invariants. *)
Require Import Coq.setoid_ring.Ring Coq.Arith.Arith Coq.Lists.List Coq.Bool.Bool Lia.
From Verif Require Import Base.Fld Base.Lists Base.Sums Math.MleSpec Math.MleModel Math.ArithModel Math.ArithProofs
  Field.Quad Field.TowerProofs Transparent.TransparentModel Transparent.TransparentProps Transparent.TowerBasisProps
  Transparent.ShiftModel Transparent.ShiftProps Protocol.Proto Protocol.Soundness
  Evalcheck.OracleModel Evalcheck.EvalModel Evalcheck.EvalSpec Evalcheck.EvalMle.
Import ListNotations.

Lemma TF_char2 L : char2 (TF L).
Proof. apply (st_2 (stage_at L)). Qed.

Section Proofs.
  Variable L : nat.
  Notation F := (TF L).
  Local Open Scope fld_scope.
  Add Ring FLring : (f_ring (TF L)).

  (** * Growing oracle sets *)
  Lemma refers_app (os ext : oset L) id i m : refers os id i m -> refers (os ++ ext) id i m.
  Proof.
    intros (H & o & E & M). split; auto. exists o. split; auto. rewrite nth_error_app1; auto.
    apply nth_error_Some. congruence.
  Qed.

  Lemma variant_ok_app (os ext : oset L) id n v : variant_ok os id n v -> variant_ok (os ++ ext) id n v.
  Proof.
    destruct v; cbn [variant_ok]; auto.
    - intros [H1 H2]. split; auto. now apply refers_app.
    - intros [H1 H2]. split; auto. now apply refers_app.
    - intros [H1 H2]. split; auto. now apply refers_app.
    - apply refers_app.
    - intros [H1 H2]. split; auto. intros i c HI. apply refers_app. eauto.
    - intros [H1 H2]. split; auto. now apply refers_app.
    - intros (H1 & H2 & H3). split; auto. split; auto. intros i HI. apply refers_app. auto.
  Qed.

  Lemma oset_ok_snoc (os : oset L) n l v : oset_ok os -> variant_ok os (length os) n v ->
    oset_ok (os ++ [Some (mkOracle n l v)]).
  Proof.
    intros H HV id o E. destruct (Nat.lt_ge_cases id (length os)) as [Hl|Hl].
    - rewrite nth_error_app1 in E by auto. apply variant_ok_app. now apply H.
    - rewrite nth_error_app2 in E by auto. destruct (id - length os)%nat as [|k] eqn:EK; cbn [nth_error] in E.
      + injection E as <-. cbn [o_nvars o_variant]. replace id with (length os) by lia. now apply variant_ok_app.
      + destruct k; discriminate.
  Qed.

  Lemma consistent_app (os ext : oset L) V : consistent (os ++ ext) V -> consistent os V.
  Proof.
    intros H id o E x Hx. assert (E' : nth_error (os ++ ext) id = Some (Some o)).
    { rewrite nth_error_app1; auto. apply nth_error_Some. congruence. }
    specialize (H id o E' x Hx). destruct (o_variant o); cbn [defined_at] in *; auto.
    intros inner EI. apply H. rewrite nth_error_app1; auto. apply nth_error_Some. congruence.
  Qed.

  Lemma nth_error_grow {A} (l m : list A) i a : nth_error l i = Some a -> nth_error (l ++ m) i = Some a.
  Proof. intros H. rewrite nth_error_app1; auto. apply nth_error_Some. congruence. Qed.

  Lemma nth_error_last {A} (l : list A) a : nth_error (l ++ [a]) (length l) = Some a.
  Proof. rewrite nth_error_app2, Nat.sub_diag by lia. reflexivity. Qed.

  (** * The bivariate reductions *)

  Definition meta_ext (os : oset L) (i k : nat) (o : oracle L) (p : list F) (m : mvpoly F * nat) : oset L :=
    (if (k <? o_nvars o)%nat
     then [Some (mkOracle (o_nvars o - length (skipn k p)) (o_level o)
                   (Projected i (skipn k p) (o_nvars o - length (skipn k p))))] else [])
    ++ [Some (mkOracle (mv_nvars (fst m)) (snd m) (Transparent (fst m)))].

  Lemma oget_ok (os : oset L) i o : nth_error os i = Some (Some o) -> oget os i = Ok o.
  Proof. unfold oget. now intros ->. Qed.

  Lemma meta_eq (os : oset L) i k o p ctr : nth_error os i = Some (Some o) -> (k <= o_nvars o)%nat ->
    (k <= length p <= o_nvars o)%nat ->
    projected_bivariate_meta os i k p ctr =
      try m <- ctr (firstn k p);
      if (L <? snd m)%nat then Err
      else Ok (os ++ meta_ext os i k o p m,
               (if (k <? o_nvars o)%nat then length os else i,
                (length os + if (k <? o_nvars o)%nat then 1 else 0)%nat)).
  Proof.
    intros E Hk Hp. unfold projected_bivariate_meta. rewrite (oget_ok _ _ _ E). cbn [rbind].
    assert (HI : (i < length os)%nat) by (apply nth_error_Some; congruence).
    unfold meta_ext. destruct (Nat.ltb_spec k (o_nvars o)) as [Hl|Hl].
    - rewrite (proj2 (Nat.ltb_ge _ _)) by lia.
      unfold add_projected_last_vars, is_valid_oracle_id, n_vars_of, level_of. rewrite (proj2 (Nat.ltb_lt _ _) HI). cbn [negb].
      rewrite (oget_ok _ _ _ E). cbn [rbind]. rewrite skipn_length.
      rewrite !(proj2 (Nat.ltb_ge _ _)) by lia. unfold add_to_set. cbn [rbind fst snd].
      destruct (ctr (firstn k p)) as [[q l]| |]; cbn [rbind]; auto. unfold add_transparent. cbn [fst snd].
      destruct (L <? l)%nat; auto. unfold add_to_set. cbn [rbind fst snd].
      rewrite app_length. cbn [length app]. now rewrite <- app_assoc.
    - cbn [rbind]. rewrite firstn_all2 by lia. destruct (ctr p) as [[q l]| |]; cbn [rbind]; auto. unfold add_transparent. cbn [fst snd].
      destruct (L <? l)%nat; auto. unfold add_to_set. cbn [rbind fst snd app]. now rewrite Nat.add_0_r.
  Qed.

  Lemma meta_ok (os : oset L) i k d o p m t : oset_ok os -> nth_error os i = Some (Some o) ->
    (k <= o_nvars o)%nat -> (k <= length p <= o_nvars o)%nat -> (d + length (skipn k p) = o_nvars o)%nat ->
    evaluates_to F (fst m) d t ->
    let os' := os ++ meta_ext os i k o p m in
    let id := if (k <? o_nvars o)%nat then length os else i in
    let mul := (length os + if (k <? o_nvars o)%nat then 1 else 0)%nat in
    oset_ok os' /\
    (exists o1, nth_error os' id = Some (Some o1) /\ o_nvars o1 = d) /\
    (exists o2, nth_error os' mul = Some (Some o2) /\ o_nvars o2 = d) /\
    forall V, consistent os' V -> forall x, (x < 2 ^ d)%nat ->
      V id x = mle (V i) (vertex d x ++ skipn k p) /\ V mul x = t x.
  Proof.
    intros HO E Hk Hp Hd HT os' id mul. assert (HI : (i < length os)%nat) by (apply nth_error_Some; congruence).
    destruct m as [q l]. cbn [fst snd] in *. assert (HTn := proj1 HT).
    assert (TV : forall os' V n, nth_error os' n = Some (Some (mkOracle (mv_nvars q) l (Transparent q))) -> consistent os' V ->
      forall x, (x < 2 ^ d)%nat -> V n x = t x).
    { intros os1 V n EN HC x Hx. assert (D := HC _ _ EN x). cbn [o_nvars o_variant defined_at] in D. rewrite HTn in D.
      specialize (D Hx). destruct HT as [_ HT]. rewrite HT, vertex_length, Nat.eqb_refl in D.
      injection D as D. rewrite <- D. now apply mle_on_cube. }
    unfold os', id, mul, meta_ext. cbn [fst snd]. destruct (Nat.ltb_spec k (o_nvars o)) as [Hl|Hl].
    - replace (o_nvars o - length (skipn k p))%nat with d by lia.
      set (o1 := mkOracle d (o_level o) (Projected i (skipn k p) d)). set (o2 := mkOracle (mv_nvars q) l (Transparent q)).
      change ([Some o1] ++ [Some o2]) with ([Some o1; Some o2]).
      assert (E1 : nth_error (os ++ [Some o1; Some o2]) (length os) = Some (Some o1)).
      { rewrite nth_error_app2, Nat.sub_diag by lia. reflexivity. }
      assert (E2 : nth_error (os ++ [Some o1; Some o2]) (length os + 1) = Some (Some o2)).
      { rewrite nth_error_app2 by lia. replace (length os + 1 - length os)%nat with 1%nat by lia. reflexivity. }
      split; [|split; [|split]].
      + replace (os ++ [Some o1; Some o2]) with ((os ++ [Some o1]) ++ [Some o2]) by now rewrite <- app_assoc.
        apply oset_ok_snoc; [apply oset_ok_snoc; auto|].
        * cbn [variant_ok]. split; [lia|]. split; auto. exists o. split; auto. 
        * cbn [variant_ok]. exists t. rewrite HTn. now apply evaluates_extends.
      + exists o1. auto.
      + exists o2. auto.
      + intros V HC x Hx. split; [|now apply (TV _ _ _ E2)].
        assert (D := HC _ _ E1 x Hx). cbn [o_nvars o_variant defined_at] in D.
        unfold o1 in D. cbn [o_nvars o_variant defined_at] in D. rewrite D, Nat.sub_diag. cbn [vertex]. now rewrite app_nil_r.
    - set (o2 := mkOracle (mv_nvars q) l (Transparent q)). cbn [app]. rewrite Nat.add_0_r.
      assert (E2 : nth_error (os ++ [Some o2]) (length os) = Some (Some o2)) by apply nth_error_last.
      assert (SK : skipn k p = []) by (apply skipn_all2; lia). rewrite SK in *. cbn [length] in Hd.
      split; [|split; [|split]].
      + apply oset_ok_snoc; auto. cbn [variant_ok]. exists t. rewrite HTn. now apply evaluates_extends.
      + exists o. split; [now apply nth_error_grow|lia].
      + exists o2. auto.
      + intros V HC x Hx. split; [|now apply (TV _ _ _ E2)]. now rewrite app_nil_r, mle_on_cube.
  Qed.

  (** * Accumulators *)
  Lemma nth_error_builders (b : list (builder L)) n m : (n <= m)%nat ->
    nth_error (b ++ repeat [] (S m - length b)) n = Some (nth n b []).
  Proof.
    intros H. destruct (Nat.lt_ge_cases n (length b)) as [Hl|Hl].
    - rewrite nth_error_app1 by auto. now apply nth_error_nth'.
    - rewrite nth_error_app2 by auto. rewrite (nth_overflow b) by auto.
      rewrite (nth_error_nth' _ ([] : builder L)) by (rewrite repeat_length; lia). now rewrite nth_repeat.
  Qed.

  (** What a state holds after one more bivariate sumcheck. *)
  Lemma add_bivariate_spec m (bs : list (builder L)) n e k b : nth_error (add_bivariate_sumcheck m bs n e) k = Some b ->
    forall u, In u b <-> (In u (nth k bs []) \/ (k = n /\ u = mkUn [fst m; snd m] bivariate_product e)).
  Proof.
    unfold add_bivariate_sumcheck, add_sumcheck. intros H u.
    set (bs' := bs ++ repeat [] (S n - length bs)) in *.
    assert (HL : (n < length bs')%nat) by (unfold bs'; rewrite app_length, repeat_length; lia).
    assert (N : nth n bs' [] = nth n bs []).
    { apply nth_error_nth. now apply nth_error_builders. }
    destruct (Nat.eq_dec k n) as [->|NE].
    - rewrite nth_error_upd_eq in H by auto. injection H as <-. rewrite N. rewrite in_app_iff. cbn [In]. intuition congruence.
    - rewrite nth_error_upd_ne in H by auto. assert (K : nth k bs' [] = b) by now apply nth_error_nth.
      assert (K' : nth k bs' [] = nth k bs []).
      { unfold bs'. destruct (Nat.lt_ge_cases k (length bs)); [now rewrite app_nth1|].
        rewrite app_nth2, nth_repeat by auto. now rewrite (nth_overflow bs). }
      rewrite <- K', K. intuition congruence.
  Qed.

  Lemma add_bivariate_length m (bs : list (builder L)) n e :
    length (add_bivariate_sumcheck m bs n e) = Nat.max (length bs) (S n).
  Proof.
    unfold add_bivariate_sumcheck. rewrite upd_length, app_length, repeat_length. lia.
  Qed.

  Lemma add_composite_spec pos p (bs : list (list F * builder L)) ids c e q b u :
    (forall q' b', nth_error bs pos = Some (q', b') -> q' = p) ->
    In (q, b) (add_composite_sumcheck pos p bs ids c e) -> In u b ->
    (exists b', In (q, b') bs /\ In u b') \/ (q = p /\ u = mkUn ids c e).
  Proof.
    unfold add_composite_sumcheck, add_sumcheck. intros HP HI Hu. destruct (nth_error bs pos) as [[q' b']|] eqn:E.
    - specialize (HP _ _ eq_refl). subst q'. apply In_nth_error in HI. destruct HI as [j Ej].
      destruct (Nat.eq_dec j pos) as [->|NE].
      + rewrite nth_error_upd_eq in Ej by (apply nth_error_Some; congruence). injection Ej as <- <-.
        apply in_app_iff in Hu. destruct Hu as [Hu|[<-|[]]]; auto. left. exists b'. split; auto. eapply nth_error_In; eauto.
      + rewrite nth_error_upd_ne in Ej by auto. left. exists b. split; auto. eapply nth_error_In; eauto.
    - apply in_app_iff in HI. destruct HI as [HI|[HI|[]]]; [eauto|]. injection HI as <- <-. destruct Hu as [<-|[]]. auto.
  Qed.

  Lemma add_composite_old pos p (bs : list (list F * builder L)) ids c e q b u : In (q, b) bs -> In u b ->
    exists b', In (q, b') (add_composite_sumcheck pos p bs ids c e) /\ In u b'.
  Proof.
    unfold add_composite_sumcheck, add_sumcheck. intros HI Hu. destruct (nth_error bs pos) as [[q' b']|] eqn:E.
    - apply In_nth_error in HI. destruct HI as [j Ej]. destruct (Nat.eq_dec j pos) as [->|NE].
      + rewrite Ej in E. injection E as <- <-. exists (b ++ [mkUn ids c e]). split; [|apply in_app_iff; auto].
        apply (nth_error_In _ pos). apply nth_error_upd_eq. apply nth_error_Some. congruence.
      + exists b. split; auto. apply (nth_error_In _ j). now rewrite nth_error_upd_ne by auto.
    - exists b. split; auto. apply in_app_iff. auto.
  Qed.

  Lemma add_composite_new pos p (bs : list (list F * builder L)) ids c e :
    (forall q' b', nth_error bs pos = Some (q', b') -> q' = p) ->
    exists b', In (p, b') (add_composite_sumcheck pos p bs ids c e) /\ In (mkUn ids c e) b'.
  Proof.
    unfold add_composite_sumcheck, add_sumcheck. intros HP. destruct (nth_error bs pos) as [[q' b']|] eqn:E.
    - specialize (HP _ _ eq_refl). subst q'. exists (b' ++ [mkUn ids c e]). split; [|apply in_app_iff; cbn; auto].
      apply (nth_error_In _ pos). apply nth_error_upd_eq. apply nth_error_Some. congruence.
    - eexists. split; [apply in_app_iff; right; left; reflexivity|]. now left.
  Qed.

  (** * Equality tests *)
  Lemma point_eqb_eq (p q : list F) : point_eqb p q = true <-> p = q.
  Proof.
    revert q. induction p as [|x p IH]; intros [|y q]; cbn [point_eqb]; try (split; congruence).
    rewrite andb_true_iff, IH. destruct (feqb_spec F x y); split; intros; try (destruct H; congruence); try congruence.
    - split; congruence.
  Qed.

  Lemma claim_eqb_eq (c d : claim L) : claim_eqb c d = true <-> c = d.
  Proof.
    destruct c as [i p e], d as [j q f]. unfold claim_eqb. cbn [c_id c_point c_eval].
    rewrite !andb_true_iff, point_eqb_eq, Nat.eqb_eq. destruct (feqb_spec F e f); split; intros H.
    - destruct H as [[-> ->] _]. now subst.
    - injection H as -> -> ->. auto.
    - destruct H; discriminate.
    - congruence.
  Qed.
End Proofs.
