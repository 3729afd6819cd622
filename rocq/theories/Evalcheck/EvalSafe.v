(** C44: the evalcheck verifier never panics on sets of oracles without linear combinations. *)
Require Import Coq.setoid_ring.Ring Coq.Arith.Arith Coq.Lists.List Coq.Bool.Bool Lia.
From Verif Require Import Base.Fld Base.Lists Base.Sums Math.MleSpec Math.MleModel Math.ArithModel Math.ArithProofs
  Field.Quad Field.TowerProofs Transparent.TransparentModel Transparent.TransparentProps Transparent.TowerBasisProps
  Transparent.ShiftModel Transparent.ShiftProps Protocol.Proto Protocol.Safe
  Evalcheck.OracleModel Evalcheck.EvalModel Evalcheck.EvalSpec Evalcheck.EvalMle Evalcheck.EvalProofs Evalcheck.EvalReduce.
Import ListNotations.

Section Safe.
  Variable L : nat.
  Notation F := (TF L).
  Variable u32 : F -> nat.
  Local Open Scope fld_scope.

  Definition no_combinations (os : oset L) : Prop :=
    forall id o, nth_error os id = Some (Some o) -> match o_variant o with LinearCombination _ _ _ => False | _ => True end.

  Definition fine (st st' : vstate L) : Prop :=
    vstate_ok st' /\ no_combinations (st_oracles st') /\ exists e, st_oracles st' = st_oracles st ++ e.

  Lemma fine_refl st : vstate_ok st -> no_combinations (st_oracles st) -> fine st st.
  Proof. intros H N. split; auto. split; auto. exists []. now rewrite app_nil_r. Qed.

  Lemma meta_ext_plain (os : oset L) i k o p m : no_combinations os -> no_combinations (os ++ meta_ext L os i k o p m).
  Proof.
    intros HP id oo E. destruct (Nat.lt_ge_cases id (length os)) as [Hl|Hl].
    - rewrite nth_error_app1 in E by auto. now apply HP in E.
    - rewrite nth_error_app2 in E by auto. unfold meta_ext in E.
      destruct (k <? o_nvars o)%nat; cbn [app] in E; destruct (id - length os)%nat as [|[|j]]; cbn [nth_error] in E;
        try discriminate; try (destruct j; discriminate); injection E as <-; exact I.
  Qed.

  Lemma read_u32_safe {A} (Q : A -> Prop) f : (forall i, safe Q (f i)) -> safe Q (vbind (read_u32 u32) f).
  Proof. intros H. unfold read_u32. cbn [vbind safe]. auto. Qed.

  Lemma multilinear_safe rec n c st :
    (forall c st, (c_id c < n)%nat -> vstate_ok st -> no_combinations (st_oracles st) -> claim_sized (st_oracles st) c ->
      safe (fine st) (rec c st)) ->
    (c_id c < n)%nat -> vstate_ok st -> no_combinations (st_oracles st) -> claim_sized (st_oracles st) c ->
    safe (fine st) (verify_multilinear u32 rec c st).
  Proof.
    intros REC Hc K N Z. unfold verify_multilinear, read_hint, read_u32. cbn [vbind safe]. intros l _.
    destruct (u32 (hd 0 l)) as [|[|[|k]]]; cbn [vbind safe]; auto.
    intros l' _. destruct (nth_error _ _) as [d|]; cbn [safe]; auto. destruct (claim_eqb d c); cbn [safe]; auto. now apply fine_refl.
  Qed.

  Lemma variant_safe rec c st o :
    (forall c' st, (c_id c' < c_id c)%nat -> vstate_ok st -> no_combinations (st_oracles st) -> claim_sized (st_oracles st) c' ->
      safe (fine st) (rec c' st)) ->
    vstate_ok st -> no_combinations (st_oracles st) ->
    nth_error (st_oracles st) (c_id c) = Some (Some o) -> length (c_point c) = o_nvars o ->
    safe (fine st) (verify_variant u32 rec c (o_variant o) st).
  Proof.
    intros REC K N E HP. assert (HO := proj1 K _ _ E). assert (NC := N _ _ E). set (p := c_point c) in *.
    assert (RED : forall c', refers (st_oracles st) (c_id c) (c_id c') (length (c_point c')) ->
      safe (fine st) (verify_multilinear u32 rec c' st)).
    { intros c' (Hlt & oi & Ei & En). apply (multilinear_safe rec (c_id c)); auto. exists oi. auto. }
    assert (NOW : fine st st) by now apply fine_refl.
    assert (BIV : forall os' ext m d, os' = st_oracles st ++ ext -> no_combinations os' -> reduction L (st_oracles st) (c_id c) p os' m d ->
      fine st (set_sums (add_bivariate_sumcheck m (st_sums st) d (c_eval c)) (set_oracles os' st))).
    { intros os' ext m d Ext N' R. destruct (bivariate_state L st (c_id c) p os' m d (c_eval c) K (ex_intro _ _ Ext) R) as [K' _].
      split; auto. split; auto. eexists. exact Ext. }
    destruct (o_variant o) as [|poly|circ|i k|i vs s|i off b sv|i d|m off inner|i pad nz s|m ids circ] eqn:EV;
      cbn [verify_variant variant_ok] in *; fold p.
    - cbn [safe]. split; [|split; [exact N|exists []; now rewrite app_nil_r]]. destruct K as (H1 & H2 & H3 & H4).
      split; [exact H1|]. split; [exact H2|]. split; [exact H3|].
      intros c' HI. cbn [push_committed st_committed] in HI. apply in_app_iff in HI. destruct HI as [HI|[<-|[]]]; [now apply H4|].
      exists o. auto.
    - destruct (transparent_value L _ _ _ p (proj1 K) E HP _ EV) as (t & -> & HT). cbn [vbind].
      destruct (feqb (mle t p) (c_eval c)); cbn [safe]; auto.
    - destruct (structured_value L _ _ _ p (proj1 K) E HP _ EV) as (Hn & t & HE & HT). rewrite (proj2 (Nat.ltb_ge _ _)), HE by auto.
      destruct (feqb (mle t p) (c_eval c)); cbn [safe]; auto.
    - destruct HO as [Hk HR]. rewrite (proj2 (Nat.ltb_ge _ _)) by lia. apply RED.
      cbn [c_id c_point]; rewrite firstn_length; replace (Nat.min _ _) with (o_nvars o - k)%nat by lia; exact HR.
    - destruct HO as [Hs HR]. rewrite (proj2 (Nat.ltb_ge _ _)) by lia. apply RED.
      cbn [c_id c_point]. rewrite !app_length, firstn_length, skipn_length.
      replace (Nat.min s (length p) + (length vs + (length p - s)))%nat with (o_nvars o + length vs)%nat by lia. exact HR.
    - destruct (shifted_reduces L _ _ _ p i off b sv (proj1 K) E HP EV) as (oi & q & m & -> & _ & R). cbn [vbind fst snd safe].
      eapply BIV; [reflexivity|now apply meta_ext_plain|exact R].
    - destruct (packed_reduces L _ _ _ p i d (proj1 K) E HP EV) as (oi & Ei & [[_ ->]|(Hl & q & m & -> & R)]); [exact I|]. cbn [vbind fst snd safe].
      eapply BIV; [reflexivity|now apply meta_ext_plain|exact R].
    - destruct NC.
    - destruct HO as [Hs HR]. rewrite (proj2 (Nat.ltb_ge _ _)) by lia.
      set (zs := firstn pad (skipn s p)) in *. assert (LZ : length zs = pad) by (unfold zs; rewrite firstn_length, skipn_length; lia).
      rewrite LZ, select_row_new_spec. destruct (Nat.ltb_spec nz (2 ^ pad)) as [Hz|Hz]; [|exact I]. cbn [vbind].
      destruct (select_row_correct F pad nz Hz) as [_ HE]. rewrite HE, LZ, Nat.eqb_refl.
      destruct (feqb (mle _ zs) 0).
      + destruct (feqb (c_eval c) 0); cbn [safe]; auto.
      + apply RED. cbn [c_id c_point]. rewrite app_length, firstn_length, skipn_length.
        replace (Nat.min s (length p) + (length p - (s + pad)))%nat with (o_nvars o - pad)%nat by lia. exact HR.
    - apply read_u32_safe. intros pos.
      assert (STEP : (forall q' b', nth_error (st_mles st) pos = Some (q', b') -> q' = p) ->
        fine st (set_mles (add_composite_sumcheck pos p (st_mles st) ids circ (c_eval c)) st)).
      { intros HQ. destruct (composite_state L st (c_id c) o p m ids circ pos (c_eval c) K E HP EV HQ) as [K' B].
        split; auto. split; auto. exists []. now rewrite app_nil_r. }
      destruct (nth_error (st_mles st) pos) as [[q b]|] eqn:EQ.
      + destruct (point_eqb q p) eqn:EP; cbn [negb safe]; auto. apply point_eqb_eq in EP. apply STEP. congruence.
      + apply STEP. congruence.
  Qed.

  Lemma skip_safe fuel : forall c st, (c_id c < fuel)%nat -> vstate_ok st -> no_combinations (st_oracles st) ->
    claim_sized (st_oracles st) c -> safe (fine st) (verify_skip u32 fuel c st).
  Proof.
    induction fuel as [|fuel IH]; intros c st Hc K N (o & E & HP); [lia|]. cbn [verify_skip].
    set (st1 := set_round (st_round st ++ [c]) st). rewrite (oget_ok L _ _ _ E : oget (st_oracles st1) (c_id c) = Ok o). cbn [vbind].
    apply (variant_safe (verify_skip u32 fuel) c st1 o); auto. intros c' st' H1. apply IH. lia.
  Qed.

  Lemma loop_safe claims : forall st, vstate_ok st -> no_combinations (st_oracles st) ->
    (forall c, In c claims -> claim_sized (st_oracles st) c) -> safe (fine st) (verify_loop u32 claims st).
  Proof.
    induction claims as [|c claims IH]; intros st K N Z; cbn [verify_loop]; [now apply fine_refl|].
    eapply (safe_bind F (fine st)).
    - apply (multilinear_safe _ (S (c_id c))); auto; [|apply Z; now left]. intros c' st' H. now apply skip_safe.
    - intros st1 (K1 & N1 & e & E1). apply (safe_mono F (fine st1)).
      + apply IH; auto. intros c' HI. destruct (Z c' (or_intror HI)) as (o & Eo & Ho). exists o. split; auto. rewrite E1. now apply nth_error_grow.
      + intros st2 (K2 & N2 & e2 & E2). split; auto. split; auto. exists (e ++ e2). now rewrite E2, E1, app_assoc.
  Qed.

  (** Whatever the prover sends.  With linear combinations this is false: [evalcheck_panics_refuted]. *)
  Theorem evalcheck_no_panic (claims : list (claim L)) (st : vstate L) tape cs :
    vstate_ok st -> no_combinations (st_oracles st) -> (forall c, In c claims -> claim_sized (st_oracles st) c) ->
    vrun (verify u32 claims st) tape cs <> Panic.
  Proof. intros K N Z. apply (safe_vrun F (fine (set_round [] st))). now apply loop_safe. Qed.
End Safe.
