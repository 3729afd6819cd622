(** C44: the evalcheck verifier accepts a claim only if it is true or an obligation it has recorded
    is false. *)
Require Import Coq.setoid_ring.Ring Coq.Arith.Arith Coq.Lists.List Coq.Bool.Bool Lia.
From Verif Require Import Base.Fld Base.Lists Base.Sums Math.MleSpec Math.MleModel Math.ArithModel Math.ArithProofs
  Field.Quad Field.TowerProofs Transparent.TransparentModel Transparent.TransparentProps Transparent.TowerBasisProps
  Transparent.ShiftModel Transparent.ShiftProps Protocol.Proto Protocol.Soundness
  Evalcheck.OracleModel Evalcheck.EvalModel Evalcheck.EvalSpec Evalcheck.EvalMle Evalcheck.EvalProofs
  Evalcheck.EvalReduce.
Import ListNotations.

Section Sound.
  Variable L : nat.
  Notation F := (TF L).
  Variable u32 : F -> nat.
  Local Open Scope fld_scope.
  Add Ring FLring : (f_ring (TF L)).

  (** [st'] has all oracles and obligations of [st]. *)
  Definition grows (st st' : vstate L) : Prop :=
    vstate_ok st' /\ (exists ext, st_oracles st' = st_oracles st ++ ext) /\
    forall V, consistent (st_oracles st') V -> obligations V st' -> obligations V st.

  (** If [V] satisfies [st'] and the claims of the round in [st] about oracles below [n] are true. *)
  Definition given (n : nat) (st st' : vstate L) (V : values L) : Prop :=
    consistent (st_oracles st') V /\ obligations V st' /\
    forall r, In r (st_round st) -> (c_id r < n)%nat -> claim_true V r.

  Definition adds (n : nat) (st st' : vstate L) : Prop :=
    grows st st' /\ exists new, st_round st' = st_round st ++ new /\
      (forall r, In r new -> (c_id r < n)%nat) /\
      forall V, given n st st' V -> forall r, In r new -> claim_true V r.

  Lemma grows_trans a b c : grows a b -> grows b c -> grows a c.
  Proof.
    intros (_ & [e1 E1] & O1) (K & [e2 E2] & O2). split; auto. split.
    - exists (e1 ++ e2). now rewrite E2, E1, app_assoc.
    - intros V C O. assert (C' := C). rewrite E2 in C'. apply consistent_app in C'. auto.
  Qed.

  Lemma grows_refl st : vstate_ok st -> grows st st.
  Proof. intros H. split; auto. split; auto. exists []. now rewrite app_nil_r. Qed.

  Lemma adds_refl n st : vstate_ok st -> adds n st st.
  Proof. intros H. split; [now apply grows_refl|]. exists []. rewrite app_nil_r. repeat split; auto; intros; cbn in *; tauto. Qed.

  Lemma given_left n a b c V : grows a b -> grows b c -> given n a c V -> given n a b V.
  Proof.
    intros _ (_ & [e E] & O) (C & B & R). split; [|split; auto]. rewrite E in C. now apply consistent_app in C.
  Qed.

  Lemma given_right n a b c V : adds n a b -> grows b c -> given n a c V -> given n b c V.
  Proof.
    intros (G & new & E & _ & T) G2 H. assert (H' := given_left n a b c V G G2 H). destruct H as (C & B & R).
    split; auto. split; auto. intros r HI Hr. rewrite E in HI. apply in_app_iff in HI. destruct HI as [HI|HI]; auto.
  Qed.

  Lemma adds_trans n a b c : adds n a b -> adds n b c -> adds n a c.
  Proof.
    intros A1 A2. assert (G1 := proj1 A1). assert (G2 := proj1 A2). split; [now apply (grows_trans a b c)|].
    destruct A1 as (_ & n1 & E1 & I1 & T1). destruct A2 as (_ & n2 & E2 & I2 & T2).
    exists (n1 ++ n2). split; [now rewrite E2, E1, app_assoc|]. split.
    - intros r HI. apply in_app_iff in HI. destruct HI; auto.
    - intros V H r HI. apply in_app_iff in HI. destruct HI as [HI|HI].
      + apply T1; auto. now apply (given_left n a b c).
      + apply T2; auto. apply (given_right n a b c); auto. split; auto. exists n1. auto.
  Qed.

  Lemma adds_mono n m st st' : (n <= m)%nat -> adds n st st' -> adds m st st'.
  Proof.
    intros H (G & new & E & I & T). split; auto. exists new. split; auto. split.
    - intros r HI. specialize (I r HI). lia.
    - intros V (C & B & R) r HI. apply T; auto. split; auto. split; auto. intros r' HI' Hr. apply R; auto. lia.
  Qed.

  (** What a call on the claim [c] establishes. *)
  Definition checked (n : nat) (st : vstate L) (c : claim L) (st' : vstate L) : Prop :=
    adds n st st' /\ forall V, given n st st' V -> claim_true V c.

  Lemma sized_grows st st' c : grows st st' -> claim_sized (st_oracles st) c -> claim_sized (st_oracles st') c.
  Proof.
    intros (_ & [e E] & _) (o & H1 & H2). exists o. split; auto. rewrite E. now apply nth_error_grow.
  Qed.

  Section Variants.
    Variable rec : claim L -> vstate L -> vproto F (vstate L).
    Variable n : nat.
    Hypothesis REC : forall c st, (c_id c < n)%nat -> vstate_ok st -> claim_sized (st_oracles st) c ->
      sound (checked (S (c_id c)) st c) 0 (rec c st).

    Lemma read_u32_sound {A} (good : A -> Prop) f : (forall i, sound good 0 (f i)) -> sound good 0 (vbind (read_u32 u32) f).
    Proof. intros H. unfold read_u32. cbn [vbind]. constructor. intros l _. apply H. Qed.

    Lemma read_hint_sound {A} (good : A -> Prop) f :
      (forall i, sound good 0 (f (DuplicateClaim i))) -> sound good 0 (f NewClaim) ->
      sound good 0 (vbind (read_hint u32) f).
    Proof.
      intros H1 H2. unfold read_hint, read_u32. cbn [vbind]. constructor. intros l _.
      destruct (u32 (hd 0 l)) as [|[|[|k]]]; cbn [vbind]; auto; try constructor. intros l' _. apply H1.
    Qed.

    Lemma multilinear_sound c st : (c_id c < n)%nat -> vstate_ok st -> claim_sized (st_oracles st) c ->
      sound (checked n st c) 0 (verify_multilinear u32 rec c st).
    Proof.
      intros Hc HS HZ. unfold verify_multilinear. apply read_hint_sound.
      - intros i. destruct (nth_error (st_round st) i) as [d|] eqn:E; [|constructor].
        destruct (claim_eqb d c) eqn:EC; constructor. apply claim_eqb_eq in EC. subst d.
        split; [now apply adds_refl|]. intros V (_ & _ & R). apply R; auto. now apply nth_error_In in E.
      - apply (sound_mono F (checked (S (c_id c)) st c) _ 0 0); auto.
        intros st' (A & T). split; [now apply (adds_mono (S (c_id c)))|].
        intros V (C & B & R). apply T. split; auto. split; auto. intros r HI Hr. apply R; auto. lia.
    Qed.

    Definition subchecked (st : vstate L) (ids : list nat) (p : list F) (x : list F * vstate L) : Prop :=
      adds n st (snd x) /\ forall V, given n st (snd x) V -> Forall2 (fun id e => mle (V id) p = e) ids (fst x).

    Lemma subclaim_sound id p st : (id < n)%nat -> vstate_ok st -> (exists o, nth_error (st_oracles st) id = Some (Some o) /\ length p = o_nvars o) ->
      sound (fun x => adds n st (snd x) /\ forall V, given n st (snd x) V -> mle (V id) p = fst x) 0
        (verify_subclaim u32 rec id p st).
    Proof.
      intros Hid HS HZ. unfold verify_subclaim. apply read_hint_sound.
      - intros i. destruct (nth_error (st_round st) i) as [d|] eqn:E; [|constructor].
        destruct (Nat.eqb_spec (c_id d) id) as [EI|]; [|constructor]. destruct (point_eqb (c_point d) p) eqn:EP; [|constructor].
        apply point_eqb_eq in EP. cbn [negb orb]. constructor. cbn [fst snd]. split; [now apply adds_refl|].
        intros V (_ & _ & R). apply nth_error_In in E. assert (T := R d E). unfold claim_true in T. rewrite EI, EP in T. auto.
      - unfold read_scalar. cbn [vbind]. constructor. intros l _.
        apply (sound_bind F (checked (S id) st (mkClaim id p (hd 0 l))) _ 0 0); [exact (REC (mkClaim id p (hd 0 l)) st Hid HS HZ)|].
        intros st' (A & T). constructor. cbn [fst snd]. split; [now apply (adds_mono (S id))|].
        intros V (C & B & R). apply (T V). split; auto. split; auto. intros r HI Hr. apply R; auto. lia.
    Qed.

    Lemma subclaims_sound p ids : forall st, vstate_ok st ->
      (forall id, In id ids -> (id < n)%nat /\ exists o, nth_error (st_oracles st) id = Some (Some o) /\ length p = o_nvars o) ->
      sound (subchecked st ids p) 0 (verify_subclaims u32 rec ids p st).
    Proof.
      induction ids as [|id ids IH]; intros st HS HI; cbn [verify_subclaims].
      - constructor. split; [now apply adds_refl|]. intros V _. constructor.
      - destruct (HI id (or_introl eq_refl)) as [Hid Hz].
        eapply (sound_bind F _ _ 0 0); [now apply subclaim_sound|]. intros [e st1] (A1 & T1). cbn [fst snd] in *.
        assert (G1 := proj1 A1).
        eapply (sound_bind F _ _ 0 0).
        + apply IH; [apply G1|]. intros i Hi. destruct (HI i (or_intror Hi)) as (H1 & o & Eo & HL). split; auto.
          exists o. split; auto. destruct G1 as (_ & [ext E] & _). rewrite E. now apply nth_error_grow.
        + intros [es st2] (A2 & T2). cbn [fst snd] in *. assert (G2 := proj1 A2). constructor. cbn [fst snd].
          split; [now apply (adds_trans n st st1 st2)|]. intros V GV. constructor.
          * apply T1. now apply (given_left n st st1 st2).
          * apply T2. now apply (given_right n st st1 st2).
    Qed.
  End Variants.

  Lemma no_claims n (st st' : vstate L) c : vstate_ok st' -> (exists ext, st_oracles st' = st_oracles st ++ ext) ->
    st_round st' = st_round st ->
    (forall V, consistent (st_oracles st') V -> obligations V st' -> obligations V st) ->
    (forall V, consistent (st_oracles st') V -> obligations V st' -> claim_true V c) -> checked n st c st'.
  Proof.
    intros K X R O T. split.
    - split; [split; auto|]. exists []. rewrite R, app_nil_r. split; auto. split; [intros ? []|intros ? ? ? []].
    - intros V (C & B & _). auto.
  Qed.

  Lemma variant_sound rec c st o :
    (forall c' st, (c_id c' < c_id c)%nat -> vstate_ok st -> claim_sized (st_oracles st) c' ->
      sound (checked (S (c_id c')) st c') 0 (rec c' st)) ->
    vstate_ok st -> nth_error (st_oracles st) (c_id c) = Some (Some o) -> length (c_point c) = o_nvars o ->
    sound (checked (c_id c) st c) 0 (verify_variant u32 rec c (o_variant o) st).
  Proof.
    intros REC HS E HP. assert (HO := proj1 HS _ _ E). set (p := c_point c) in *.
    assert (RED : forall c', refers (st_oracles st) (c_id c) (c_id c') (length (c_point c')) ->
      (forall V os', oset_ok os' -> nth_error os' (c_id c) = Some (Some o) -> consistent os' V -> claim_true V c' -> claim_true V c) ->
      sound (checked (c_id c) st c) 0 (verify_multilinear u32 rec c' st)).
    { intros c' (Hlt & oi & Ei & En) HT. eapply (sound_mono F _ _ 0 0); [apply (multilinear_sound rec (c_id c)); auto|auto|].
      - exists oi. auto.
      - intros st' (A & T). split; auto. intros V GV. destruct (proj1 A) as (K & [ext Ext] & _).
        apply (HT V (st_oracles st')); [apply K|rewrite Ext; now apply nth_error_grow|apply GV|]. now apply T. }
    assert (SELF : exists ext, st_oracles st = st_oracles st ++ ext) by (exists []; now rewrite app_nil_r).
    destruct (o_variant o) as [|poly|circ|i k|i vs s|i off b sv|i d|m off inner|i pad nz s|m ids circ] eqn:EV;
      cbn [verify_variant variant_ok] in *; fold p.
    - (* Committed *)
      constructor. apply no_claims; auto.
      + destruct HS as (H1 & H2 & H3 & H4). split; [exact H1|]. split; [exact H2|]. split; [exact H3|].
        intros c' HI. cbn [push_committed st_committed] in HI. apply in_app_iff in HI. destruct HI as [HI|[<-|[]]]; [now apply H4|].
        exists o. auto.
      + intros V _ (B1 & B2 & B3). split; [|split; assumption]. intros c' HI. apply B1. apply in_app_iff. auto.
      + intros V _ (B1 & _). apply B1. apply in_app_iff. right. now left.
    - (* Transparent *)
      destruct (transparent_value L _ _ _ p (proj1 HS) E HP _ EV) as (t & -> & HT). cbn [vbind].
      destruct (feqb_spec F (mle t p) (c_eval c)) as [Ee|]; constructor. apply no_claims; auto.
      intros V C _. unfold claim_true. fold p. now rewrite HT.
    - (* Structured *)
      destruct (structured_value L _ _ _ p (proj1 HS) E HP _ EV) as (Hn & t & HE & HT). rewrite (proj2 (Nat.ltb_ge _ _)), HE by auto.
      destruct (feqb_spec F (mle t p) (c_eval c)) as [Ee|]; constructor. apply no_claims; auto.
      intros V C _. unfold claim_true. fold p. now rewrite HT.
    - (* Repeating *)
      destruct HO as [Hk HR]. rewrite (proj2 (Nat.ltb_ge _ _)) by lia.
      apply RED; [cbn [c_id c_point]; rewrite firstn_length; replace (Nat.min _ _) with (o_nvars o - k)%nat by lia; exact HR|].
      intros V os' K E' C T. unfold claim_true in *. cbn [c_id c_point c_eval] in T. rewrite <- T. fold p.
      now apply (repeating_value L os' V (c_id c) o p E' HP C).
    - (* Projected *)
      destruct HO as [Hs HR]. rewrite (proj2 (Nat.ltb_ge _ _)) by lia. apply RED.
      { cbn [c_id c_point]. rewrite !app_length, firstn_length, skipn_length.
        replace (Nat.min s (length p) + (length vs + (length p - s)))%nat with (o_nvars o + length vs)%nat by lia. exact HR. }
      intros V os' K E' C T. unfold claim_true in *. cbn [c_id c_point c_eval] in T. rewrite <- T. fold p.
      now apply (projected_value L os' V (c_id c) o p K E' HP C).
    - (* Shifted *)
      destruct (shifted_reduces L _ _ _ p i off b sv (proj1 HS) E HP EV) as (oi & q & m & -> & _ & R). cbn [vbind fst snd].
      destruct (bivariate_state L st (c_id c) p _ m b (c_eval c) HS (ex_intro _ _ eq_refl) R) as [K B].
      constructor. apply no_claims; auto; [eexists; reflexivity| |].
      + intros V C O. now apply (B V C) in O.
      + intros V C O. now apply (B V C) in O.
    - (* Packed *)
      destruct (packed_reduces L _ _ _ p i d (proj1 HS) E HP EV) as (oi & Ei & [[_ ->]|(Hl & q & m & -> & R)]); [constructor|]. cbn [vbind fst snd].
      destruct (bivariate_state L st (c_id c) p _ m d (c_eval c) HS (ex_intro _ _ eq_refl) R) as [K B].
      constructor. apply no_claims; auto; [eexists; reflexivity| |].
      + intros V C O. now apply (B V C) in O.
      + intros V C O. now apply (B V C) in O.
    - (* LinearCombination *)
      destruct HO as [Hm HR].
      eapply (sound_bind F _ _ 0 0).
      + apply (subclaims_sound rec (c_id c)); auto. intros id HI. apply in_map_iff in HI. destruct HI as ([i a] & <- & HI).
        destruct (HR i a HI) as (Hlt & oi & Ei & En). cbn [fst]. split; auto. exists oi. split; auto. congruence.
      + intros [evals st'] (A & T). cbn [fst snd] in *.
        destruct (feqb_spec F (off + weighted evals (map snd inner)) (c_eval c)) as [Ee|]; constructor.
        split; auto. intros V GV. unfold claim_true. rewrite <- Ee. fold p.
        destruct (proj1 A) as (K & [ext Ext] & _).
        assert (E' : nth_error (st_oracles st') (c_id c) = Some (Some o)) by (rewrite Ext; now apply nth_error_grow).
        apply (combination_value L _ V (c_id c) o p E' HP (proj1 GV) m off inner evals EV). now apply T.
    - (* ZeroPadded *)
      destruct HO as [Hs HR]. rewrite (proj2 (Nat.ltb_ge _ _)) by lia.
      assert (ML := fun V os' K E' C => padded_value L os' V (c_id c) o p K E' HP C i pad nz s EV).
      set (zs := firstn pad (skipn s p)) in *. assert (LZ : length zs = pad) by (unfold zs; rewrite firstn_length, skipn_length; lia).
      rewrite LZ, select_row_new_spec. destruct (Nat.ltb_spec nz (2 ^ pad)) as [Hz|Hz]; [|constructor]. cbn [vbind].
      destruct (select_row_correct F pad nz Hz) as [_ HE]. rewrite HE, LZ, Nat.eqb_refl.
      set (t := mle (fun x => if (x =? nz)%nat then 1 else 0) zs) in *.
      destruct (feqb_spec F t 0) as [T0|T0].
      + destruct (feqb_spec F (c_eval c) 0) as [E0|]; constructor. apply no_claims; auto.
        intros V C _. unfold claim_true. fold p. rewrite (ML V _ (proj1 HS) E C), T0, E0. ring.
      + apply RED.
        { cbn [c_id c_point]. rewrite app_length, firstn_length, skipn_length.
          replace (Nat.min s (length p) + (length p - (s + pad)))%nat with (o_nvars o - pad)%nat by lia. exact HR. }
        intros V os' K E' C T. unfold claim_true in *. cbn [c_id c_point c_eval] in T. fold p. rewrite (ML V os' K E' C), T.
        transitivity (c_eval c * (finv t * t)); [ring|]. rewrite f_inv_l by auto. ring.
    - (* Composite *)
      apply read_u32_sound. intros pos.
      assert (STEP : (forall q' b', nth_error (st_mles st) pos = Some (q', b') -> q' = p) ->
        checked (c_id c) st c (set_mles (add_composite_sumcheck pos p (st_mles st) ids circ (c_eval c)) st)).
      { intros HQ. destruct (composite_state L st (c_id c) o p m ids circ pos (c_eval c) HS E HP EV HQ) as [K B].
        apply no_claims; auto.
        - intros V _ (B1 & B2 & B3). split; auto. split; auto. intros q b u HI Hu.
          destruct (add_composite_old L pos p (st_mles st) ids circ (c_eval c) q b u HI Hu) as (b' & HI' & Hu'). eauto.
        - intros V C O. now apply (B V C) in O. }
      destruct (nth_error (st_mles st) pos) as [[q b]|] eqn:EQ.
      + destruct (point_eqb q p) eqn:EP; cbn [negb]; [|constructor]. apply point_eqb_eq in EP. constructor. apply STEP. congruence.
      + constructor. apply STEP. congruence.
  Qed.

  Lemma skip_sound fuel : forall c st, (c_id c < fuel)%nat -> vstate_ok st -> claim_sized (st_oracles st) c ->
    sound (checked (S (c_id c)) st c) 0 (verify_skip u32 fuel c st).
  Proof.
    induction fuel as [|fuel IH]; intros c st Hc HS (o & E & HP); [lia|]. cbn [verify_skip].
    set (st1 := set_round (st_round st ++ [c]) st). rewrite (oget_ok L _ _ _ E : oget (st_oracles st1) (c_id c) = Ok o). cbn [vbind].
    apply (sound_mono F (checked (c_id c) st1 c) _ 0 0); auto.
    - apply (variant_sound (verify_skip u32 fuel) c st1 o); auto. intros c' st' H1 H2 H3. apply IH; auto. lia.
    - intros st' ((G & new & EN & I1 & T1) & T). assert (G' : grows st st') by exact G.
      assert (GV : forall V, given (S (c_id c)) st st' V -> given (c_id c) st1 st' V).
      { intros V (C & B & R). split; auto. split; auto. intros r HI Hr. cbn [st1 set_round st_round] in HI.
        apply in_app_iff in HI. destruct HI as [HI|[<-|[]]]; [apply R; auto; lia|lia]. }
      split; [|auto]. split; auto. exists (c :: new). split.
      + rewrite EN. cbn [st1 set_round st_round]. now rewrite <- app_assoc.
      + split.
        * intros r [<-|HI]; [lia|]. specialize (I1 r HI). lia.
        * intros V H r [<-|HI]; auto.
  Qed.

  Lemma loop_sound claims : forall st n, vstate_ok st -> (forall c, In c claims -> claim_sized (st_oracles st) c /\ (c_id c < n)%nat) ->
    sound (fun st' => adds n st st' /\ forall V, given n st st' V -> forall c, In c claims -> claim_true V c) 0
      (verify_loop u32 claims st).
  Proof.
    induction claims as [|c claims IH]; intros st n HS HC; cbn [verify_loop].
    - constructor. split; [now apply adds_refl|]. intros V _ c [].
    - destruct (HC c (or_introl eq_refl)) as [Hz Hn].
      eapply (sound_bind F _ _ 0 0).
      + apply (multilinear_sound (verify_skip u32 (S (c_id c))) (S (c_id c))); auto.
        intros c' st' H1 H2 H3. apply skip_sound; auto.
      + intros st1 (A1' & T1'). assert (A1 : adds n st st1) by (apply (adds_mono (S (c_id c))); auto; lia). assert (G1 := proj1 A1).
        apply (sound_mono F (fun st' => adds n st1 st' /\ forall V, given n st1 st' V -> forall c, In c claims -> claim_true V c) _ 0 0); auto.
        * apply IH; [apply G1|]. intros c' HI. destruct (HC c' (or_intror HI)) as [Z N]. split; auto. now apply (sized_grows st st1).
        * intros st2 (A2 & T2). assert (G2 := proj1 A2). split; [now apply (adds_trans n st st1 st2)|].
          intros V GV c' [<-|HI].
          -- apply T1'. destruct (given_left n st st1 st2 V G1 G2 GV) as (C & B & R). split; auto. split; auto.
             intros r HI' Hr. apply R; auto. lia.
          -- apply T2; auto. now apply (given_right n st st1 st2).
  Qed.

  (** C44: whatever the prover sends, if the verifier returns normally then its state is well formed
      and contains the old one, and under every assignment of values to the oracles that respects
      their definitions, if everything recorded for later is true, all the claims are true. *)
  Theorem evalcheck_sound (claims : list (claim L)) (st : vstate L) :
    vstate_ok st -> (forall c, In c claims -> claim_sized (st_oracles st) c) ->
    sound (fun st' => vstate_ok st' /\ (exists new, st_oracles st' = st_oracles st ++ new) /\
      forall V, consistent (st_oracles st') V -> obligations V st' ->
        obligations V st /\ forall c, In c claims -> claim_true V c) 0 (verify u32 claims st).
  Proof.
    intros HS HC. unfold verify. set (n := S (list_max (map c_id claims))).
    apply (sound_mono F (fun st' => adds n (set_round [] st) st' /\ forall V, given n (set_round [] st) st' V -> forall c, In c claims -> claim_true V c) _ 0 0); auto.
    - apply loop_sound; [exact HS|]. intros c HI. split; [now apply HC|]. unfold n.
      assert (H := proj1 (list_max_le (map c_id claims) (list_max (map c_id claims))) (le_n _)).
      rewrite Forall_forall in H. specialize (H (c_id c) (in_map c_id _ _ HI)). lia.
    - intros st' (((K & X & O) & _) & T). split; auto. split; auto. intros V C B. split; [exact (O V C B)|].
      apply T. split; auto. split; auto. intros r [].
  Qed.

  (** The same in terms of a run on a proof tape. *)
  Lemma sound0_run {A} (good : A -> Prop) (p : vproto F A) : sound good 0 p ->
    forall tape cs a t c, vrun p tape cs = Ok (a, t, c) -> good a.
  Proof.
    intros H. remember 0%nat as e eqn:Ee. induction H as [e|e|e a H|e n k H IH|d e b k HB H IH]; intros tape cs a' t c R; cbn [vrun] in R; try discriminate.
    - cbn in R. injection R as <- <- <-. exact H.
    - destruct (Nat.ltb_spec (length tape) n); [discriminate|]. eapply IH; eauto. rewrite firstn_length. lia.
    - destruct cs as [|x cs]; [discriminate|]. eapply IH; eauto; [|lia].
      destruct (b x) eqn:B; auto. assert (d = 0)%nat by lia. subst d. specialize (HB [x]).
      assert (length [x] <= 0)%nat; [|cbn in *; lia]. apply HB; [repeat constructor; intros []|intros y [<-|[]]; auto].
  Qed.

  Theorem evalcheck_run_sound (claims : list (claim L)) (st st' : vstate L) tape cs t c :
    vstate_ok st -> (forall c, In c claims -> claim_sized (st_oracles st) c) ->
    vrun (verify u32 claims st) tape cs = Ok (st', t, c) ->
    forall V, consistent (st_oracles st') V -> obligations V st' -> forall c, In c claims -> claim_true V c.
  Proof.
    intros HS HC R V C B. apply (sound0_run _ _ (evalcheck_sound claims st HS HC) _ _ _ _ _ R); auto.
  Qed.
End Sound.
