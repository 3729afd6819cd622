(** C81: the check of a witness against a constraint system (constraint_system/validate.rs) accepts every witness that satisfies
    the system, and what an accepted witness satisfies.  The check is incomplete on zero-padded oracles, exponentiations and constraint sets without columns;
    see the refuted statements at the end of Cs/ValidateExamples.v. *)
Require Import Coq.ZArith.ZArith Coq.NArith.NArith Coq.Arith.Arith Coq.Lists.List Coq.Bool.Bool Lia.
From Verif Require Import Transcript.SerProofs Sumcheck.ZerocheckModel Base.Fld Base.Lists Base.Sums Math.MleSpec Math.MleModel Math.ArithModel Math.ArithProofs Math.ArithProps
  Field.TowerModel Field.TowerProofs Transparent.TransparentModel Transparent.ShiftModel Compute.CircuitPolyModel
  Evalcheck.OracleModel Evalcheck.SymbolicModel Evalcheck.EvalModel Evalcheck.EvalSpec
  Cs.ChannelModel Cs.ChannelProps Cs.FlushModel Cs.VerifyModel Cs.ValidateModel Cs.ValidateProofs.
Import ListNotations.
Local Close Scope N_scope.
Local Open Scope nat_scope.

(** * Specification *)
Section Spec.
  Variable L : nat.
  Notation F := (TF L).

  (** number of variables of the columns of a constraint set *)
  Definition set_vars (sizes : list nat) (t : table_constraints L) : nat := tc_log_values_per_row L t + log2_ceil (nth (tc_table L t) sizes 0).
  (** every constraint over columns of a non-empty table vanishes on every row *)
  Definition constraints_hold (V : values L) (sys : system L) (sizes : list nat) : Prop :=
    forall t c p x, In t (sys_tables L sys) -> nth (tc_table L t) sizes 0 <> 0 -> tc_ids L t <> [] -> In (c, p) (tc_constraints L t) ->
      x < 2 ^ set_vars sizes t -> p = None /\ evaluate c (map (fun id => V id x) (tc_ids L t)) = Some f0.
  (** the columns declared to have no zero have none *)
  Definition no_zeros (os : oset L) (V : values L) (sys : system L) : Prop :=
    forall id, In id (sys_non_zero L sys) -> id < length os /\
      forall o x, nth_error os id = Some (Some o) -> x < 2 ^ o_nvars o -> V id x <> f0.
  (** all tuples of a channel have the same width, and each is pushed as often as it is pulled *)
  Definition channels_ok (eqz : Z -> Z -> Prop) (w : witness F) (sys : system L) (bs : list (boundary F)) (sizes : list nat) : Prop :=
    let es := events F w sizes (sys_flushes L sys) bs in
    inputs_ok F w (sys_flushes L sys) bs sizes (sys_channel_count L sys) /\ one_width F es /\
    forall c x, c < sys_channel_count L sys -> eqz (sent F Push c x es) (sent F Pull c x es).
  (** equality modulo [2^64], and equality *)
  Definition eq64 (a b : Z) : Prop := ((a - b) mod 2 ^ 64 = 0)%Z.
  (** the values of every oracle are what its definition says, on the rows that are looked at *)
  Definition defined_on_checked (os : oset L) (V : values L) : Prop :=
    forall id o, nth_error os id = Some (Some o) -> forall x, x < checked_rows L o -> defined_at os V id (o_nvars o) (o_variant o) x.

  (** The constraint sets are about existing columns of their size, with circuits that are compiled correctly. *)
  Definition sets_ok (os : oset L) (sys : system L) (sizes : list nat) : Prop :=
    forall t, In t (sys_tables L sys) -> tc_table L t < length sizes /\
      (nth (tc_table L t) sizes 0 <> 0 ->
        (forall id, In id (tc_ids L t) -> exists o, nth_error os id = Some (Some o) /\ o_nvars o = set_vars sizes t) /\
        (tc_ids L t <> [] -> forall c p, In (c, p) (tc_constraints L t) -> compiles L (length (tc_ids L t)) c)).
End Spec.

(** * Proofs *)
Section Props.
  Variable L : nat.
  Notation F := (TF L).
  Variable uninit : nat -> list F.
  Hypothesis uninit_length : forall n, length (uninit n) = n.

  Lemma try_iff (a b : res unit) : (try _ <- a; b) = Ok tt <-> a = Ok tt /\ b = Ok tt.
  Proof. destruct a as [[]| |]; cbn [rbind]; split; intuition discriminate. Qed.
  Lemma rmap_all_inv {A B} (f : A -> res B) : forall l r, rmap f l = Ok r -> forall a, In a l -> exists b, f a = Ok b /\ In b r.
  Proof.
    induction l as [|x l IH]; intros r H a HI; [destruct HI|]. cbn [rmap] in H. destruct (f x) as [y| |] eqn:E; cbn [rbind] in H; try discriminate.
    destruct (rmap f l) as [ys| |] eqn:E'; cbn [rbind] in H; try discriminate. apply ok_inj in H. subst r. destruct HI as [<-|HI]; [exists y; split; [exact E|now left]|].
    destruct (IH ys eq_refl a HI) as (b & Eb & Hb). exists b. split; [exact Eb|now right].
  Qed.

  Section One.
    Variable os : oset L.
    Variable w : index L.
    Hypothesis WE : entries_ok L w.
    Hypothesis WC : columns_ok L os w.
    Notation V := (witness_values L w).

    Lemma column_ent n id : (exists o, nth_error os id = Some (Some o) /\ o_nvars o = n) ->
      get_entry L w id = Ok (ent L w id) /\ en_nvars L (ent L w id) = n /\ forall x, x < 2 ^ n -> value L (ent L w id) x = Ok (V id x).
    Proof. intros (o & E & N). apply (ent_spec L os w WE WC (S id)). split; [lia|]. eauto. Qed.

    Lemma composite_values n ids x p : (forall id, In id ids -> exists o, nth_error os id = Some (Some o) /\ o_nvars o = n) -> x < 2 ^ n ->
      composite_at L p (map (ent L w) ids) x = poly_evaluate p (map (fun id => V id x) ids).
    Proof.
      intros H Hx. unfold composite_at. assert (RM : rmap (fun m => value L m x) (map (ent L w) ids) = Ok (map (fun id => V id x) ids)).
      { induction ids as [|j l IH]; cbn [map rmap]; [reflexivity|]. destruct (column_ent n j (H j (or_introl eq_refl))) as (_ & _ & EV). rewrite (EV x Hx). cbn [rbind].
        rewrite IH by (intros j' HI; apply H; now right). reflexivity. }
      now rewrite RM.
    Qed.

    Lemma set_iff sizes t size n : nth_error sizes (tc_table L t) = Some size -> size <> 0 -> tc_ids L t <> [] ->
      (forall id, In id (tc_ids L t) -> exists o, nth_error os id = Some (Some o) /\ o_nvars o = n) ->
      (forall c p, In (c, p) (tc_constraints L t) -> compiles L (length (tc_ids L t)) c) ->
      (validate_set L w sizes t = Ok tt <-> forall c p x, In (c, p) (tc_constraints L t) -> x < 2 ^ n -> p = None /\ evaluate c (map (fun id => V id x) (tc_ids L t)) = Some f0).
    Proof.
      intros ES NZ NE HC HP. unfold validate_set. rewrite ES. cbn [of_opt rbind]. rewrite (proj2 (Nat.eqb_neq _ _) NZ).
      destruct (tc_ids L t) as [|i ids'] eqn:EI; [congruence|]. set (ids := i :: ids') in *.
      rewrite (rmap_all _ (ent L w)) by (intros id HI; now apply (column_ent n id (HC id HI))). cbn [rbind]. rewrite map_length.
      assert (LEN : forallb (fun m => en_nvars L m =? n) (map (ent L w) ids) = true).
      { apply forallb_forall. intros m HI. apply in_map_iff in HI. destruct HI as (id & <- & HI). apply Nat.eqb_eq. now apply (column_ent n id (HC id HI)). }
      assert (EN : en_nvars L (ent L w i) = n) by (apply (column_ent n i (HC i (or_introl eq_refl)))).
      assert (ONE : forall c p, compiles L (length ids) c -> poly_with_n_vars true (length ids) c = Ok p ->
        ((if negb (composite_ok L n p (map (ent L w) ids)) then Err
          else all_ok (fun j => try v <- composite_at L p (map (ent L w) ids) j; if feqb v f0 then Ok tt else Err) (seq 0 (2 ^ n))) = Ok tt <->
         forall x, x < 2 ^ n -> evaluate c (map (fun id => V id x) ids) = Some f0)).
      { intros c p (CW & CN & p' & EP' & CE) EP. rewrite EP in EP'. apply ok_inj in EP'. subst p'.
        assert (CO : composite_ok L n p (map (ent L w) ids) = true) by (unfold composite_ok; rewrite (with_n_vars L _ _ _ EP), map_length, Nat.eqb_refl; exact LEN).
        rewrite CO. cbn [negb]. rewrite all_rows_iff.
        assert (PT : forall x, x < 2 ^ n -> ((try v <- composite_at L p (map (ent L w) ids) x; if feqb v f0 then Ok tt else Err) = Ok tt <-> evaluate c (map (fun id => V id x) ids) = Some f0)).
        { intros x Hx. rewrite (composite_values n ids x p HC Hx). destruct (evaluate_total F c (map (fun id => V id x) ids) (proj2 CW) ltac:(now rewrite map_length)) as (v & Ev).
          rewrite (CE (map (fun id => V id x) ids) v (map_length _ _) Ev), Ev. cbn [rbind]. destruct (feqb v f0) eqn:EZ.
          - apply f_eqb in EZ. subst v. tauto.
          - split; [discriminate|]. intros H. injection H as ->. rewrite (proj2 (f_eqb F f0 f0) eq_refl) in EZ. discriminate. }
        split; intros H x Hx; apply PT; try lia; apply H; lia. }
      assert (VZ : forall zs, validate_zeros L (map (ent L w) ids) zs =
        all_ok (fun p => if negb (composite_ok L n p (map (ent L w) ids)) then Err
                         else all_ok (fun j => try v <- composite_at L p (map (ent L w) ids) j; if feqb v f0 then Ok tt else Err) (seq 0 (2 ^ n))) zs).
      { intros zs. unfold validate_zeros. cbv zeta. replace (match map (ent L w) ids with [] => 0 | m :: _ => en_nvars L m end) with n by (symmetry; exact EN). rewrite LEN. reflexivity. }
      split.
      - intros H. match type of H with (try _ <- ?X; _) = _ => destruct X as [zs| |] eqn:EZ end; cbn [rbind] in H; try discriminate. rewrite VZ, all_ok_iff in H.
        intros c p x HI Hx. destruct (rmap_all_inv _ _ _ EZ (c, p) HI) as (q & Eq & Hq). cbn [fst snd] in Eq. destruct p as [s|]; [discriminate|]. split; [reflexivity|].
        apply (ONE c q (HP c None HI) Eq); [|exact Hx]. now apply H.
      - intros H. assert (RZ : exists zs, rmap (fun c => match snd c with None => poly_with_n_vars true (length ids) (fst c) | Some _ => Panic end) (tc_constraints L t) = Ok zs /\
            forall q, In q zs -> exists c, In (c, None) (tc_constraints L t) /\ poly_with_n_vars true (length ids) c = Ok q).
        { assert (P2 : 0 < 2 ^ n) by (apply Nat.neq_0_lt_0, Nat.pow_nonzero; lia).
          induction (tc_constraints L t) as [|[c p] l IH]; [exists []; split; [reflexivity|intros q []]|]. cbn [rmap fst snd].
          destruct (H c p 0 (or_introl eq_refl) P2) as [-> _]. destruct (HP c None (or_introl eq_refl)) as (_ & _ & q & Eq & _). rewrite Eq. cbn [rbind].
          destruct IH as (zs & Ez & Hz); [intros c' p' HI; apply (HP c' p'); now right|intros c' p' x HI; apply H; now right|]. rewrite Ez. cbn [rbind]. exists (q :: zs). split; [reflexivity|].
          intros q' [<-|HI]; [exists c; split; [now left|exact Eq]|]. destruct (Hz q' HI) as (c' & HI' & E'). exists c'. split; [now right|exact E']. }
        destruct RZ as (zs & EZ & HZ). rewrite EZ. cbn [rbind]. rewrite VZ. apply all_ok_iff. intros q HI. destruct (HZ q HI) as (c & HI' & Eq).
        apply (ONE c q (HP c None HI') Eq). intros x Hx. now apply (H c None x).
    Qed.

    Lemma sets_iff sys sizes : sets_ok L os sys sizes -> (all_ok (validate_set L w sizes) (sys_tables L sys) = Ok tt <-> constraints_hold L V sys sizes).
    Proof.
      intros SO. rewrite all_ok_iff. split.
      - intros H t c p x HT NZ NE HI Hx. destruct (SO t HT) as (LT & ST). destruct (ST NZ) as (S1 & S2).
        apply (proj1 (set_iff sizes t _ (set_vars L sizes t) (nth_error_nth' sizes 0 LT) NZ NE S1 (S2 NE)) (H t HT) c p x HI Hx).
      - intros H t HT. destruct (SO t HT) as (LT & ST). destruct (Nat.eq_dec (nth (tc_table L t) sizes 0) 0) as [Z|NZ].
        + unfold validate_set. rewrite (nth_error_nth' sizes 0 LT), Z. reflexivity.
        + destruct (ST NZ) as (S1 & S2). destruct (tc_ids L t) as [|i ids] eqn:EI.
          * unfold validate_set. rewrite (nth_error_nth' sizes 0 LT). cbn [of_opt rbind]. rewrite (proj2 (Nat.eqb_neq _ _) NZ), EI. reflexivity.
          * assert (NE : tc_ids L t <> []) by congruence. rewrite <- EI in *.
            apply (set_iff sizes t _ (set_vars L sizes t) (nth_error_nth' sizes 0 LT) NZ NE S1 (S2 NE)). intros c p x HI Hx. exact (H t c p x HT NZ NE HI Hx).
    Qed.

    Lemma nonzero_iff sys : validate_nonzero L os w (sys_non_zero L sys) = Ok tt <-> no_zeros L os V sys.
    Proof.
      unfold validate_nonzero, no_zeros. rewrite all_ok_iff. split; intros H id HI; specialize (H id HI); unfold is_zero_sized in *.
      - destruct (nth_error os id) as [[o|]|] eqn:E; cbn [rbind] in H; try discriminate.
        + assert (LT : id < length os) by (apply nth_error_Some; congruence). split; [exact LT|]. intros o' x Eo Hx. injection Eo as <-.
          destruct (column_ent (o_nvars o) id ltac:(eauto)) as (EG & EN & EV). rewrite EG in H. cbn [rbind] in H. rewrite EN in H. apply (proj1 (all_rows_iff _ _ _)) with (i := x) in H; [|lia].
          rewrite (EV x Hx) in H. cbn [rbind] in H. intros Z. rewrite Z, (proj2 (f_eqb F f0 f0) eq_refl) in H. discriminate.
        + split; [apply nth_error_Some; congruence|]. intros o x Eo. discriminate Eo.
      - destruct H as (LT & H). destruct (nth_error os id) as [[o|]|] eqn:E; cbn [rbind].
        + destruct (column_ent (o_nvars o) id ltac:(eauto)) as (EG & EN & EV). rewrite EG. cbn [rbind]. rewrite EN. apply all_rows_iff. intros x Hx. rewrite EV by lia. cbn [rbind].
          destruct (feqb (V id x) f0) eqn:EZ; [|reflexivity]. apply f_eqb in EZ. exfalso. exact (H o x eq_refl ltac:(lia) EZ).
        + reflexivity.
        + apply nth_error_None in E. lia.
    Qed.
  End One.

  Lemma present_in (os : oset L) id o : In (id, o) (present_oracles L os) <-> nth_error os id = Some (Some o).
  Proof.
    unfold present_oracles. assert (G : forall l k, In (id, o) (flat_map (fun p => match snd p with Some o => [(fst p, o)] | None => [] end) (combine (seq k (length l)) l)) <-> k <= id /\ nth_error l (id - k) = Some (Some o)).
    { induction l as [|a l IH]; intros k; cbn [length seq combine flat_map].
      - split; [intros []|intros [_ H]; destruct (id - k); discriminate H].
      - rewrite in_app_iff, IH. cbn [fst snd]. split.
        + intros [H|[H1 H2]]; [destruct a as [a|]; [|destruct H]; destruct H as [[= -> ->]|[]]; rewrite Nat.sub_diag; auto|]. split; [lia|]. now replace (id - k) with (S (id - S k)) by lia.
        + intros [H1 H2]. destruct (Nat.eq_dec id k) as [->|NE]; [left; rewrite Nat.sub_diag in H2; injection H2 as ->; now left|right]. split; [lia|]. now replace (id - k) with (S (id - S k)) in H2 by lia. }
    rewrite (G os 0), Nat.sub_0_r. intuition lia.
  Qed.

  (** C81, accepted witnesses: everything the constraint system asks for holds, up to the multiplicities being compared modulo [2^64], the
      rows of zero-padded oracles that are looked at, exponentiations and constraint sets without columns. *)
  Theorem validate_sound_partial ss sys bs sizes w os : instantiate L ss sizes = Ok os -> oset_ok os ->
    entries_ok L w -> packed_levels L os w -> composites_compile L os -> sets_ok L os sys sizes -> 0 < sys_channel_count L sys ->
    validate L uninit false ss sys bs sizes w = Ok tt ->
    let V := witness_values L w in
    check_table_sizes (sys_specs L sys) sizes = Ok tt /\ columns_ok L os w /\ constraints_hold L V sys sizes /\ no_zeros L os V sys /\
    channels_ok L eq64 (polys L w) sys bs sizes /\ defined_on_checked L os V.
  Proof.
    intros EI OK WE WP CC SO NC H. cbv zeta. unfold validate in H. rewrite try_iff in H. destruct H as [H1 H]. rewrite EI in H. cbn [rbind] in H. rewrite !try_iff in H. destruct H as (H2 & H3 & H4 & H5).
    rewrite all_ok_iff in H5.
    assert (WC : columns_ok L os w). { intros id o PO. apply (validate_entry L uninit os w id o). apply (H5 (id, o)). now apply present_in. }
    split; [exact H1|]. split; [exact WC|]. split; [now apply (sets_iff os w WE WC)|]. split; [now apply (nonzero_iff os w WE WC)|]. split.
    - destruct (validate_witness_mod F (polys L w) (sys_flushes L sys) bs sizes _ NC) as [VM _]. destruct (proj1 VM H4) as (A & B & C). split; [exact A|]. split; [exact B|exact C].
    - intros id o PO x Hx. apply (proj1 (virtual_ok L uninit uninit_length os w OK WE WC WP CC id o PO)); [|exact Hx]. apply (H5 (id, o)). now apply present_in.
  Qed.

  (** When there is no zero-padded oracle and fewer than [2^63] tuples are flushed, an accepted witness has columns as the oracles say and balanced channels. *)
  Theorem validate_sound ss sys bs sizes w os : instantiate L ss sizes = Ok os -> oset_ok os ->
    entries_ok L w -> packed_levels L os w -> composites_compile L os -> sets_ok L os sys sizes -> 0 < sys_channel_count L sys ->
    (forall id o i pad nz s, nth_error os id = Some (Some o) -> o_variant o <> ZeroPadded i pad nz s) ->
    (total F (events F (polys L w) sizes (sys_flushes L sys) bs) < 2 ^ 63)%Z ->
    validate L uninit false ss sys bs sizes w = Ok tt ->
    let V := witness_values L w in
    consistent os V /\ constraints_hold L V sys sizes /\ no_zeros L os V sys /\ channels_ok L eq (polys L w) sys bs sizes.
  Proof.
    intros EI OK WE WP CC SO NC NP TO H. cbv zeta. destruct (validate_sound_partial ss sys bs sizes w os EI OK WE WP CC SO NC H) as (H1 & WC & H2 & H3 & H4 & H5).
    split; [|split; [exact H2|split; [exact H3|]]].
    - intros id o PO x Hx. apply (H5 id o PO). unfold checked_rows. destruct (o_variant o) eqn:EV; try exact Hx. exfalso. exact (NP id o _ _ _ _ PO EV).
    - destruct H4 as (A & B & C). split; [exact A|]. unfold validate in H. rewrite try_iff, EI in H. cbn [rbind] in H. rewrite !try_iff in H.
      destruct (validate_witness_correct F false (polys L w) (sys_flushes L sys) bs sizes _ NC A TO) as [VC _]. apply VC. apply H.
  Qed.

  (** C81, completeness: a witness whose columns are as the oracles say and that satisfies the constraint system is accepted, with or without overflow checks. *)
  Theorem validate_complete checks ss sys bs sizes w os : instantiate L ss sizes = Ok os -> oset_ok os ->
    entries_ok L w -> packed_levels L os w -> composites_compile L os -> sets_ok L os sys sizes -> 0 < sys_channel_count L sys ->
    (forall id o, nth_error os id = Some (Some o) -> storable L o) ->
    (total F (events F (polys L w) sizes (sys_flushes L sys) bs) < 2 ^ 63)%Z ->
    let V := witness_values L w in
    check_table_sizes (sys_specs L sys) sizes = Ok tt -> columns_ok L os w ->
    consistent os V -> constraints_hold L V sys sizes -> no_zeros L os V sys -> channels_ok L eq (polys L w) sys bs sizes ->
    validate L uninit checks ss sys bs sizes w = Ok tt.
  Proof.
    cbv zeta. intros EI OK WE WP CC SO NC ST TO CT WC CO CH NZ (A & B & C). unfold validate. rewrite try_iff. split; [exact CT|]. rewrite EI. cbn [rbind]. rewrite !try_iff.
    split; [now apply (sets_iff os w WE WC)|]. split; [now apply (nonzero_iff os w WE WC)|]. split.
    - apply (proj1 (validate_witness_correct F checks (polys L w) (sys_flushes L sys) bs sizes _ NC A TO)). auto.
    - apply all_ok_iff. intros [id o] HI. cbn [fst snd]. apply present_in in HI. apply (virtual_ok L uninit uninit_length os w OK WE WC WP CC id o HI); [exact (ST id o HI)|].
      intros x Hx. apply (CO id o HI). unfold checked_rows in Hx. pose proof (OK id o HI) as VO. destruct (o_variant o); try exact Hx. cbn [variant_ok] in VO.
      eapply Nat.lt_le_trans; [exact Hx|]. apply Nat.pow_le_mono_r; lia.
  Qed.
End Props.
