(** C26 and C27: the additive NTT inverts and evaluates. *)
Require Import Coq.NArith.NArith Coq.setoid_ring.Ring Coq.Arith.Arith Coq.Lists.List Coq.Bool.Bool Lia.
From Verif Require Import Base.Fld Base.Lists Base.Sums Base.NatBits Field.Examples Ntt.NttSpec Ntt.SubspaceTheory
  Ntt.TwiddleModel Ntt.TwiddleProofs Ntt.TwiddleProps Ntt.NttModel Ntt.NttProofs Ntt.NttCompose.
Import ListNotations.
Local Close Scope N_scope.
Local Open Scope nat_scope.

(** The parameters a transform accepts: [2^ln] packed elements of [2^lw] scalars; the tensor fills
    them exactly, except that it may be smaller when there are at most two packed elements. *)
Record valid (lw d len : nat) (sh : shape) (coset cb skip : nat) : Prop := {
  v_skip : skip <= log_y sh;
  v_coset : coset < 2 ^ cb;
  v_dom : log_y sh + cb <= d;
  v_size : exists ln, len = 2 ^ ln /\
    (log_x sh + log_y sh + log_z sh = ln + lw \/ (ln <= 1 /\ log_x sh + log_y sh + log_z sh <= ln + lw))
}.

Lemma some_inj {A} (x y : A) : Some x = Some y -> x = y.
Proof. congruence. Qed.

Lemma is_power_of_two_spec n : is_power_of_two n = true <-> exists k, n = 2 ^ k.
Proof.
  unfold is_power_of_two. destruct n as [|n].
  - split; [discriminate|]. intros [k E]. pose proof (pow2_pos k). lia.
  - split.
    + cbn [Nat.eqb negb andb]. intros H. apply Nat.eqb_eq in H. exists (Nat.log2 (S n)). auto.
    + intros [k E]. rewrite E, Nat.log2_pow2, Nat.eqb_refl by lia. rewrite <- E. reflexivity.
Qed.

Lemma check_params_valid {F : field} lw d (data : list (list F)) sh coset cb skip :
  (valid lw d (length data) sh coset cb skip /\ check_params lw d data sh coset cb skip = Ok tt) \/
  (~ valid lw d (length data) sh coset cb skip /\ check_params lw d data sh coset cb skip = Err).
Proof.
  destruct sh as [lx ly lz]. unfold check_params. cbn [log_x log_y log_z].
  destruct (is_power_of_two (length data)) eqn:EP; cbn [negb].
  2:{ right. split; auto. intros V. destruct (v_size _ _ _ _ _ _ _ V) as [ln [E _]].
      rewrite (proj2 (is_power_of_two_spec _)) in EP by eauto. discriminate. }
  apply is_power_of_two_spec in EP. destruct EP as [ln EL].
  destruct (Nat.ltb_spec ly skip) as [L|L].
  { right. split; auto. intros V. pose proof (v_skip _ _ _ _ _ _ _ V). cbn in *. lia. }
  assert (FS : Nat.shiftr (length data * 2 ^ lw) (lx + lz) = if lx + lz <=? ln + lw then 2 ^ (ln + lw - (lx + lz)) else 0).
  { rewrite shr_div, EL, <- Nat.pow_add_r. destruct (Nat.leb_spec (lx + lz) (ln + lw)) as [Q|Q].
    - replace (ln + lw) with ((ln + lw - (lx + lz)) + (lx + lz)) at 1 by lia. rewrite Nat.pow_add_r.
      apply Nat.div_mul. pose proof (pow2_pos (lx + lz)). lia.
    - apply Nat.div_small. now apply pow2_lt. }
  rewrite FS. pose proof (pow2_pos ly) as PY.
  assert (LN : (2 <? length data) = (1 <? ln)).
  { rewrite EL. destruct (Nat.ltb_spec 1 ln) as [Q|Q].
    - apply Nat.ltb_lt. pose proof (pow2_lt 1 ln Q). cbn [Nat.pow] in *. lia.
    - apply Nat.ltb_ge. pose proof (pow2_le ln 1 Q). cbn [Nat.pow] in *. lia. }
  rewrite LN. set (fs := if lx + lz <=? ln + lw then 2 ^ (ln + lw - (lx + lz)) else 0).
  assert (SZ : negb (2 ^ ly =? fs) && (1 <? ln) || (fs <? 2 ^ ly) = false <->
               lx + ly + lz = ln + lw \/ (ln <= 1 /\ lx + ly + lz <= ln + lw)).
  { unfold fs. destruct (Nat.leb_spec (lx + lz) (ln + lw)) as [Q|Q].
    - destruct (Nat.ltb_spec (2 ^ (ln + lw - (lx + lz))) (2 ^ ly)) as [Q1|Q1].
      + apply pow2_lt_inv in Q1. rewrite orb_true_r. split; [discriminate|lia].
      + apply pow2_le_inv in Q1. rewrite orb_false_r.
        destruct (Nat.eqb_spec (2 ^ ly) (2 ^ (ln + lw - (lx + lz)))) as [Q2|Q2]; cbn [negb andb].
        * apply pow2_inj in Q2. split; auto. lia.
        * assert (ly <> ln + lw - (lx + lz)) by congruence.
          destruct (Nat.ltb_spec 1 ln); split; auto; try discriminate; lia.
    - rewrite (proj2 (Nat.ltb_lt 0 (2 ^ ly))) by auto. rewrite orb_true_r. split; [discriminate|lia]. }
  destruct (negb (2 ^ ly =? fs) && (1 <? ln) || (fs <? 2 ^ ly)) eqn:ES.
  { right. split; auto. intros V. destruct (v_size _ _ _ _ _ _ _ V) as [ln' [E' Q]]. cbn [log_x log_y log_z] in Q.
    assert (ln' = ln) by (apply pow2_inj; congruence). subst ln'. apply SZ in Q. discriminate. }
  destruct (Nat.leb_spec (2 ^ cb) coset) as [Q|Q].
  { right. split; auto. intros V. pose proof (v_coset _ _ _ _ _ _ _ V). lia. }
  destruct (Nat.ltb_spec d (ly + cb)) as [Q'|Q'].
  { right. split; auto. intros V. pose proof (v_dom _ _ _ _ _ _ _ V). cbn in *. lia. }
  left. split; auto. constructor; cbn [log_x log_y log_z]; auto. exists ln. split; auto. now apply SZ.
Qed.

Section Props.
  Variable F : field.
  Hypothesis H2 : char2 F.
  Local Open Scope fld_scope.
  Add Ring Fring : (f_ring F).

  Variable basis : list F.
  Hypothesis BI : lin_indep basis.
  Hypothesis B1 : nth 0 basis 0 = 1.

  (** The twiddle tables of a constructed NTT: on-the-fly or precomputed
      (single_threaded.rs 25-50). *)
  Definition tables (ts : list (twiddle F)) : Prop := otf_generate basis = Ok ts \/ pre_generate basis = Ok ts.

  Variable ts : list (twiddle F).
  Hypothesis HT : tables ts.

  Lemma tables_repr : tws_repr ts (bs basis) (length basis).
  Proof.
    assert (NE : (0 < length basis)%nat)
      by (destruct basis; [cbn in B1; exfalso; apply (f_10 F); auto|cbn; lia]).
    destruct (generate_repr F H2 basis BI NE B1) as [ts0 [tp0 [E1 [E2 [_ [R1 R2]]]]]].
    destruct HT as [E|E]; [rewrite E1 in E|rewrite E2 in E]; inversion E; subst; auto.
  Qed.

  Let d := length basis.

  Definition gam (n : nat) : nat -> F := shifted (bs basis) (d - n).
  Definition bet (n i : nat) (k : nat) : F := hat (gam n) i (gam n (S i + k)%nat).

  Lemma indep_gam n : (n <= d)%nat -> indep (gam n) n.
  Proof. intros L. apply indep_shifted; auto. replace (d - n + n)%nat with d by lia. exact BI. Qed.

  Lemma slice_repr n i : (n <= d)%nat -> (i < n)%nat ->
    exists t, nth_error (skipn (d - n) ts) i = Some t /\ tw_repr t (n - S i) 0 (bet n i).
  Proof.
    intros Ln Li. destruct tables_repr as [LT R].
    destruct (R (d - n + i)%nat) as [t [N RT]]; [fold d; lia|].
    exists t. split.
    - rewrite nth_error_skipn. exact N.
    - fold d in RT. replace (d - S (d - n + i))%nat with (n - S i)%nat in RT by lia.
      assert (EB : forall k, (k < n - S i)%nat ->
         bet n i k = hat (bs basis) (d - n + i) (bs basis (S (d - n + i) + k))).
      { intros k Hk. unfold bet, gam, shifted at 2. rewrite (hat_shifted F H2 (bs basis) (d - n) n).
        - do 2 f_equal. lia.
        - replace (d - n + n)%nat with d by lia. exact BI.
        - lia. }
      destruct RT as [EN RT]. split; [exact EN|]. destruct t as [m o s|m s].
      + destruct RT as [-> [LS RS]]. split; auto. split; auto. intros k Hk. rewrite RS by auto. now rewrite EB.
      + destruct RT as [LS RS]. split; auto. intros k Hk. rewrite RS by auto. f_equal. apply bsum_ext.
        intros j Hj. now rewrite EB.
  Qed.

  Section Core.
  Variables (lw lx ly lz coset cb skip : nat).
  Hypothesis (HC : (coset < 2 ^ cb)%nat) (HD : (ly + cb <= d)%nat) (HS : (skip <= ly)%nat).
  Let n := (ly + cb)%nat.
  Let sl := skipn (d - n) ts.
  Let tot := (lx + ly + lz)%nat.
  Let sh := mkShape lx ly lz.
  Let len := (2 ^ (Nat.max tot (S lw) - lw))%nat.

  Definition Tf (i k : nat) : F := T0 (bet n i) (n - S i) (coset * 2 ^ (ly - 1 - i) + k)%nat.

  Lemma big_ok bf sb i D : lanewise lw bf sb -> (lw <= lx + i)%nat -> (i < ly)%nat -> wfd lw D -> length D = len ->
    exists D', big_round bf lw sl sh coset D i = Some D' /\ length D' = length D /\ wfd lw D' /\
      forall s, (s < 2 ^ tot)%nat -> sc lw D' s = Rnd sb (lx + i) (2 ^ (ly - 1 - i)) (Tf i) (sc lw D) s.
  Proof.
    intros HL Lw Li WD LD. destruct (slice_repr n i) as [t [N R]]; [unfold n; lia|unfold n; lia|].
    apply (big_round_spec F lw bf sb sl t lx ly lz coset i D (Tf i)); auto.
    - intros k Hk. rewrite (tw_get_spec F t (n - S i) 0 (bet n i) _ R).
      + unfold Tf, T0. f_equal. ring.
      + replace (n - S i)%nat with ((ly - 1 - i) + cb)%nat by (unfold n; lia). now apply mix_lt.
    - rewrite LD. unfold len, tot. f_equal. lia.
  Qed.

  Lemma small_ok bf sb i D : lanewise lw bf sb -> (lx + i < lw)%nat -> (i < ly)%nat -> wfd lw D -> length D = len ->
    exists D', small_round bf lw sl sh coset D i = Some D' /\ length D' = length D /\ wfd lw D' /\
      forall s, (s < 2 ^ tot)%nat -> sc lw D' s = Rnd sb (lx + i) (2 ^ (ly - 1 - i)) (Tf i) (sc lw D) s.
  Proof.
    intros HL Lw Li WD LD. destruct (slice_repr n i) as [t [N R]]; [unfold n; lia|unfold n; lia|].
    apply (small_round_spec F lw bf sb sl t (n - S i) (bet n i) lx ly lz coset i D); auto.
    - unfold n. lia.
    - replace (n - S i - (ly - 1 - i))%nat with cb by (unfold n; lia). auto.
  Qed.

  Lemma undo_fwd t : length t = (2 ^ lw)%nat -> undoes F lw (butterfly t) (inv_butterfly t).
  Proof. apply (lanewise_undo F lw _ _ fwd_bf inv_bf); auto using lanewise_fwd, lanewise_inv. intros. now apply inv_fwd. Qed.
  Lemma undo_inv t : length t = (2 ^ lw)%nat -> undoes F lw (inv_butterfly t) (butterfly t).
  Proof. apply (lanewise_undo F lw _ _ inv_bf fwd_bf); auto using lanewise_fwd, lanewise_inv. intros. now apply fwd_inv. Qed.

  Lemma big_undo bf bf' i D : (forall t, length t = (2 ^ lw)%nat -> undoes F lw (bf t) (bf' t)) ->
    (forall t, length t = (2 ^ lw)%nat -> undoes F lw (bf' t) (bf t)) ->
    (lw <= lx + i)%nat -> (i < ly)%nat -> wfd lw D -> length D = len ->
    exists D', big_round bf lw sl sh coset D i = Some D' /\ length D' = length D /\ wfd lw D' /\
      big_round bf' lw sl sh coset D' i = Some D.
  Proof.
    intros U1 U2 Lw Li WD LD. destruct (slice_repr n i) as [t [N R]]; [unfold n; lia|unfold n; lia|].
    apply (big_round_undo F lw bf bf' sl t lx ly lz coset i D); auto.
    - intros k Hk. rewrite (tw_get_spec F t (n - S i) 0 (bet n i) _ R); [eauto|].
      replace (n - S i)%nat with ((ly - 1 - i) + cb)%nat by (unfold n; lia). now apply mix_lt.
    - rewrite LD. unfold len, tot. f_equal. lia.
  Qed.

  Lemma small_undo bf bf' i D : (forall t, length t = (2 ^ lw)%nat -> undoes F lw (bf t) (bf' t)) ->
    (forall t, length t = (2 ^ lw)%nat -> undoes F lw (bf' t) (bf t)) ->
    (lx + i < lw)%nat -> (i < ly)%nat -> wfd lw D -> length D = len ->
    exists D', small_round bf lw sl sh coset D i = Some D' /\ length D' = length D /\ wfd lw D' /\
      small_round bf' lw sl sh coset D' i = Some D.
  Proof.
    intros U1 U2 Lw Li WD LD. destruct (slice_repr n i) as [t [N R]]; [unfold n; lia|unfold n; lia|].
    apply (small_round_undo F lw bf bf' sl t (n - S i) (bet n i) lx ly lz coset i D); auto.
    - unfold n. lia.
    - replace (n - S i - (ly - 1 - i))%nat with cb by (unfold n; lia). auto.
  Qed.

  Let top := (ly - skip)%nat.
  Let cut := (lw - lx)%nat.

  Lemma seq_split_cut : seq 0 top = seq 0 (Nat.min cut top) ++ seq cut (top - cut).
  Proof.
    destruct (Nat.le_gt_cases top cut).
    - rewrite Nat.min_r by auto. replace (top - cut)%nat with 0%nat by lia. cbn. now rewrite app_nil_r.
    - rewrite Nat.min_l by lia. replace top with (cut + (top - cut))%nat at 1 by lia. apply seq_app.
  Qed.

  Lemma forward_core D : wfd lw D -> length D = len ->
    exists D', forward_rounds lw sl sh coset skip D = Some D' /\ length D' = length D /\ wfd lw D' /\
      inverse_rounds lw sl sh coset skip D' = Some D /\
      forall s, (s < 2 ^ tot)%nat -> sc lw D' s = Rs F fwd_bf lx ly Tf (rev (seq 0 top)) (sc lw D) s.
  Proof.
    intros WD LD. unfold forward_rounds, inverse_rounds. cbn [log_x log_y sh]. fold cut top.
    assert (IB : forall i, In i (rev (seq cut (top - cut))) -> (lw <= lx + i)%nat /\ (i < ly)%nat).
    { intros i Hi. apply in_rev, in_seq in Hi. unfold cut, top in *. lia. }
    assert (IS : forall i, In i (rev (seq 0 (Nat.min cut top))) -> (lx + i < lw)%nat /\ (i < ly)%nat).
    { intros i Hi. apply in_rev, in_seq in Hi. unfold cut, top in *. lia. }
    destruct (rounds_spec F lw (big_round butterfly lw sl sh coset) fwd_bf lx ly Tf len tot (rev (seq cut (top - cut))))
      with (D := D) as [D1 [E1 [L1 [W1 S1]]]]; auto.
    { intros i Hi. apply IB in Hi. unfold tot. lia. }
    { intros i D0 Hi W0 L0. destruct (IB i Hi). apply big_ok; auto. apply lanewise_fwd. }
    destruct (rounds_spec F lw (small_round butterfly lw sl sh coset) fwd_bf lx ly Tf len tot (rev (seq 0 (Nat.min cut top))))
      with (D := D1) as [D2 [E2 [L2 [W2 S2]]]]; auto; try congruence.
    { intros i Hi. apply IS in Hi. unfold tot. lia. }
    { intros i D0 Hi W0 L0. destruct (IS i Hi). apply small_ok; auto. apply lanewise_fwd. }
    destruct (rounds_undo F lw (big_round butterfly lw sl sh coset) (big_round inv_butterfly lw sl sh coset) len
       (rev (seq cut (top - cut)))) with (D := D) as [D1' [E1' [_ [_ R1]]]]; auto.
    { intros i D0 Hi W0 L0. destruct (IB i Hi). apply big_undo; auto using undo_fwd, undo_inv. }
    destruct (rounds_undo F lw (small_round butterfly lw sl sh coset) (small_round inv_butterfly lw sl sh coset) len
       (rev (seq 0 (Nat.min cut top)))) with (D := D1) as [D2' [E2' [_ [_ R2]]]]; auto; try congruence.
    { intros i D0 Hi W0 L0. destruct (IS i Hi). apply small_undo; auto using undo_fwd, undo_inv. }
    rewrite E1 in E1'. inversion E1'; subst D1'. rewrite E2 in E2'. inversion E2'; subst D2'.
    rewrite rev_involutive in R1, R2.
    exists D2. rewrite E1. cbn [obind]. split; [exact E2|]. split; [congruence|]. split; [exact W2|].
    split; [rewrite R2; cbn [obind]; exact R1|].
    intros s Hs. rewrite S2 by auto. rewrite seq_split_cut, rev_app_distr, Rs_app.
    apply (Rs_ext F _ _ _ _ _ tot); auto. intros i Hi. apply IS in Hi. unfold tot. lia.
  Qed.

  Lemma inverse_core D : wfd lw D -> length D = len ->
    exists D', inverse_rounds lw sl sh coset skip D = Some D' /\ length D' = length D /\ wfd lw D' /\
      forward_rounds lw sl sh coset skip D' = Some D.
  Proof.
    intros WD LD. unfold forward_rounds, inverse_rounds. cbn [log_x log_y sh]. fold cut top.
    assert (IB : forall i, In i (seq cut (top - cut)) -> (lw <= lx + i)%nat /\ (i < ly)%nat).
    { intros i Hi. apply in_seq in Hi. unfold cut, top in *. lia. }
    assert (IS : forall i, In i (seq 0 (Nat.min cut top)) -> (lx + i < lw)%nat /\ (i < ly)%nat).
    { intros i Hi. apply in_seq in Hi. unfold cut, top in *. lia. }
    destruct (rounds_undo F lw (small_round inv_butterfly lw sl sh coset) (small_round butterfly lw sl sh coset) len
       (seq 0 (Nat.min cut top))) with (D := D) as [D1 [E1 [L1 [W1 R1]]]]; auto.
    { intros i D0 Hi W0 L0. destruct (IS i Hi). apply small_undo; auto using undo_fwd, undo_inv. }
    destruct (rounds_undo F lw (big_round inv_butterfly lw sl sh coset) (big_round butterfly lw sl sh coset) len
       (seq cut (top - cut))) with (D := D1) as [D2 [E2 [L2 [W2 R2]]]]; auto; try congruence.
    { intros i D0 Hi W0 L0. destruct (IB i Hi). apply big_undo; auto using undo_fwd, undo_inv. }
    exists D2. rewrite E1. cbn [obind]. split; [exact E2|]. split; [congruence|]. split; [exact W2|].
    rewrite R2. cbn [obind]. exact R1.
  Qed.

  (** With a single packed element the second one is a zero pad, and stays so. *)
  Lemma small_zero bf sb i a : lanewise lw bf sb -> (forall t, sb t 0 0 = (0, 0)) ->
    (lx + i < lw)%nat -> (i < ly)%nat -> (tot <= lw)%nat -> length a = (2 ^ lw)%nat ->
    exists a', small_round bf lw sl sh coset [a; repeat 0 (2 ^ lw)] i = Some [a'; repeat 0 (2 ^ lw)] /\ length a' = (2 ^ lw)%nat.
  Proof.
    intros HL HZ Lw Li LT La. destruct (slice_repr n i) as [t [N R]]; [unfold n; lia|unfold n; lia|].
    unfold small_round. fold sl in N. rewrite N. cbn [obind log_x log_y log_z sh].
    unfold underflows. rewrite !(proj2 (Nat.ltb_ge _ _)) by lia. cbn [orb]. cbv zeta.
    destruct (additive_twiddle_spec F lw t (n - S i) (bet n i) lx ly lz i Lw Li R) as [bt [EB [LB _]]]; [unfold n; lia|].
    fold sh in EB. rewrite EB. cbn [obind].
    replace (ly - 1 - (lw - lx))%nat with 0%nat by (unfold tot in LT; lia).
    replace (lx + ly + lz - (lw + 0 + 1))%nat with 0%nat by (unfold tot in LT; lia).
    cbn [Nat.pow seq list_prod map app ofold Nat.shiftl Nat.iter Nat.double Nat.add Nat.lor].
    change (Nat.shiftl 0 (lw - lx - i)) with (Nat.shiftl 0 (lw - lx - i)).
    rewrite (Nat.shiftl_0_l (lw - lx - i)), Nat.lor_0_r, shl_mul.
    rewrite (tw_get_spec F t (n - S i) 0 (bet n i) _ R).
    2:{ replace (n - S i)%nat with ((ly - 1 - i) + cb)%nat by (unfold n; lia). rewrite <- (Nat.add_0_r (coset * _)).
        apply mix_lt; auto. apply pow2_pos. }
    cbn [obind]. set (g := 0 + bsum _ _ _).
    change (Nat.lor (Nat.lor (Nat.shiftl 0 1) (Nat.shiftl 0 1)) 1) with 1%nat.
    change (Nat.lor (Nat.shiftl 0 1) (Nat.shiftl 0 1)) with 0%nat.
    unfold update2. cbn [nth_error obind].
    set (z := repeat 0 (2 ^ lw)). assert (LZ : length z = (2 ^ lw)%nat) by apply repeat_length.
    replace (i + lx)%nat with (lx + i)%nat by lia. set (p := (lx + i)%nat) in *.
    assert (NZ : forall x, nth x z 0 = 0) by (intros x; apply nth_repeat).
    unfold pk_interleave at 1. rewrite (proj2 (Nat.ltb_lt _ _) Lw). cbn [obind fst snd].
    set (u := map _ (seq 0 (2 ^ lw))) at 1. set (v := map _ (seq 0 (2 ^ lw))) at 1.
    assert (Lu : length u = (2 ^ lw)%nat) by (unfold u; now rewrite map_length, seq_length).
    assert (Lv : length v = (2 ^ lw)%nat) by (unfold v; now rewrite map_length, seq_length).
    assert (LTW : length (pk_add (pk_broadcast lw g) bt) = (2 ^ lw)%nat).
    { unfold pk_add. apply (zip_with_spec F lw); auto. apply repeat_length. }
    destruct (HL _ u v LTW Lu Lv) as [u' [v' [E [Lu' [Lv' HX]]]]]. rewrite E. cbn [obind fst snd].
    assert (ZB : forall x, (x < 2 ^ lw)%nat -> Nat.testbit x p = true -> nth x u' 0 = 0 /\ nth x v' 0 = 0).
    { intros x Hx Hb. destruct (HX x Hx) as [X1 X2]. rewrite X1, X2.
      replace (nth x u 0) with (@f0 F). 2:{ unfold u. rewrite nth_map_seq by auto. now rewrite Hb, NZ. }
      replace (nth x v 0) with (@f0 F). 2:{ unfold v. rewrite nth_map_seq by auto. now rewrite Hb, NZ. }
      rewrite HZ. auto. }
    unfold pk_interleave. rewrite (proj2 (Nat.ltb_lt _ _) Lw). cbn [obind fst snd].
    cbn [upd].
    match goal with |- exists a', Some [?A; ?B] = _ /\ _ => exists A; enough (EB' : B = z) end.
    { rewrite EB'. split; [reflexivity|]. now rewrite map_length, seq_length. }
    apply (nth_ext _ _ 0 0); [now rewrite map_length, seq_length|].
    rewrite map_length, seq_length. intros x Hx. rewrite NZ, nth_map_seq by auto.
    destruct (Nat.testbit x p) eqn:Hb; [now apply ZB|].
    pose proof (split_bit x p) as SB. rewrite Hb in SB. pose proof (mod_lt x p) as M.
    assert (x + 2 ^ p = x / 2 ^ S p * 2 ^ S p + 2 ^ p + x mod 2 ^ p)%nat as E' by lia.
    apply ZB; [|rewrite E'; now apply bit_set].
    rewrite E'. replace lw with (S p + (lw - S p))%nat at 1 by lia. rewrite <- Nat.add_assoc. apply mix_lt; [|rewrite pow2_S; lia].
    apply div_lt. now replace (S p + (lw - S p))%nat with lw by lia.
  Qed.

  Lemma zero_fold bf sb l : lanewise lw bf sb -> (forall t, sb t 0 0 = (0, 0)) -> (tot <= lw)%nat ->
    (forall i, In i l -> (i < ly)%nat) -> forall a, length a = (2 ^ lw)%nat ->
    exists a', ofold (small_round bf lw sl sh coset) l [a; repeat 0 (2 ^ lw)] = Some [a'; repeat 0 (2 ^ lw)] /\
      length a' = (2 ^ lw)%nat.
  Proof.
    intros HL HZ LT. induction l as [|i l IH]; intros Hl a La; [cbn; eauto|].
    assert (Li : (i < ly)%nat) by (apply Hl; now left).
    destruct (small_zero bf sb i a HL HZ) as [a1 [E1 L1]]; auto; [unfold tot in LT; lia|].
    destruct (IH (fun i Hi => Hl i (or_intror Hi)) a1 L1) as [a2 [E2 L2]].
    exists a2. cbn [ofold]. now rewrite E1.
  Qed.

  Lemma pad_forward a : (tot <= lw)%nat -> length a = (2 ^ lw)%nat ->
    exists a', forward_rounds lw sl sh coset skip [a; repeat 0 (2 ^ lw)] = Some [a'; repeat 0 (2 ^ lw)] /\
      length a' = (2 ^ lw)%nat.
  Proof.
    intros LT La. unfold forward_rounds. cbn [log_x log_y sh]. fold cut top.
    replace (top - cut)%nat with 0%nat by (unfold tot, top, cut in *; lia). cbn [seq rev ofold obind].
    apply (zero_fold _ fwd_bf); auto using lanewise_fwd.
    - intros t. unfold fwd_bf. f_equal; ring.
    - intros i Hi. apply in_rev, in_seq in Hi. unfold top in *. lia.
  Qed.

  Lemma pad_inverse a : (tot <= lw)%nat -> length a = (2 ^ lw)%nat ->
    exists a', inverse_rounds lw sl sh coset skip [a; repeat 0 (2 ^ lw)] = Some [a'; repeat 0 (2 ^ lw)] /\
      length a' = (2 ^ lw)%nat.
  Proof.
    intros LT La. unfold inverse_rounds. cbn [log_x log_y sh]. fold cut top.
    destruct (zero_fold inv_butterfly inv_bf (seq 0 (Nat.min cut top))) with (a := a) as [a' [E L]]; auto using lanewise_inv.
    - intros t. unfold inv_bf. f_equal; ring.
    - intros i Hi. apply in_seq in Hi. unfold top in *. lia.
    - rewrite E. cbn [obind]. replace (top - cut)%nat with 0%nat by (unfold tot, top, cut in *; lia). cbn [seq ofold]. eauto.
  Qed.

  (** The rounds, on the tensor, are evaluations. *)
  Lemma Rs_novel g z y x : (y < 2 ^ ly)%nat -> (x < 2 ^ lx)%nat ->
    Rs F fwd_bf lx ly Tf (rev (seq 0 top)) g (tensor_pos lx ly z y x) =
    novel_poly (domain_basis basis n) top (fun j => g (tensor_pos lx ly z (y / 2 ^ top * 2 ^ top + j) x))
      (elem (domain_basis basis n) (coset * 2 ^ ly + y)).
  Proof.
    intros Hy Hx. assert (TP : forall y, tensor_pos lx ly z y x = pos lx ly z y x).
    { intros y'. unfold tensor_pos, pos. rewrite Nat.pow_add_r. lia. }
    rewrite TP, Rs_col; auto.
    2:{ intros i Hi. apply in_rev, in_seq in Hi. unfold top in *. lia. }
    assert (LN : (n <= d)%nat) by exact HD.
    assert (LDB : length (domain_basis basis n) = n) by (unfold domain_basis; now rewrite map_length, seq_length).
    assert (GB : forall j, (j < n)%nat -> bs (domain_basis basis n) j = gam n j).
    { intros j Hj. unfold bs, domain_basis. rewrite nth_map_seq by auto. fold d. rewrite norm_vanishing_hat by (auto; fold d; lia).
      reflexivity. }
    set (w := elem (domain_basis basis n) (coset * 2 ^ ly + y)).
    assert (EW : forall y, elem (domain_basis basis n) (coset * 2 ^ ly + y) = bsum (gam n) n (coset * 2 ^ ly + y)).
    { intros y'. rewrite elem_bsum, LDB. now apply bsum_ext. }
    rewrite (Rs_eval F ly Tf (fun b y => hat (gam n) b (bsum (gam n) n (coset * 2 ^ ly + y))) top); auto.
    - unfold novel_poly, novel. apply sumn_ext. intros j Hj. rewrite TP. f_equal. apply prodn_ext. intros b Hb.
      destruct (Nat.testbit j b); auto. rewrite norm_vanishing_hat by (auto; rewrite LDB; unfold n, top in *; lia).
      unfold w. rewrite EW. symmetry. apply hat_ext. intros k Hk. apply GB. unfold n, top in *. lia.
    - unfold top. lia.
    - intros b y' Hb Hy'. rewrite (hat_index F H2 (gam n) n b).
      + unfold Tf, T0. fold (bet n b). rewrite mix_div_lo by (unfold top in Hb; lia).
        replace (ly - S b)%nat with (ly - 1 - b)%nat by lia. f_equal. rewrite mix_bit_lo; auto. unfold top in *. lia.
      + now apply indep_gam.
      + unfold n, top in *. lia.
      + unfold n. now apply mix_lt.
  Qed.
  End Core.

  Lemma tables_length : length ts = d.
  Proof. apply tables_repr. Qed.

  Lemma size_len lw sh len ln : len = (2 ^ ln)%nat -> (1 <= ln)%nat ->
    (log_x sh + log_y sh + log_z sh = ln + lw \/ (ln <= 1 /\ log_x sh + log_y sh + log_z sh <= ln + lw))%nat ->
    len = (2 ^ (Nat.max (log_x sh + log_y sh + log_z sh) (S lw) - lw))%nat.
  Proof. intros -> L H. f_equal. lia. Qed.

  (** C27 (and the absence of panics): on accepted parameters the forward transform returns, at every
      position of every column, the value of the polynomial with the column's entries as novel basis
      coefficients at the corresponding point of the coset; with skipped rounds each of the [2^skip]
      blocks of a column is such a polynomial. *)
  Theorem ntt_forward_evaluates lw data sh coset cb skip :
    well_packed lw data -> valid lw (length basis) (length data) sh coset cb skip ->
    exists out, forward_transform lw (length ts) ts data sh coset cb skip = Ok out /\
      length out = length data /\ well_packed lw out /\
      forall z y x, (z < 2 ^ log_z sh)%nat -> (y < 2 ^ log_y sh)%nat -> (x < 2 ^ log_x sh)%nat ->
        let n := (log_y sh - skip)%nat in
        let D := domain_basis basis (log_y sh + cb) in
        scalar_at lw out (tensor_pos (log_x sh) (log_y sh) z y x) =
        novel_poly D n (fun j => scalar_at lw data (tensor_pos (log_x sh) (log_y sh) z (y / 2 ^ n * 2 ^ n + j) x))
          (elem D (coset * 2 ^ log_y sh + y)).
  Proof.
    intros WP V. pose proof V as [VS VC VD [ln [VL VZ]]].
    unfold forward_transform, transform. cbv zeta. rewrite tables_length.
    destruct (check_params_valid lw d data sh coset cb skip) as [[_ CP]|[NV _]]; [|now elim NV].
    rewrite CP. cbn [rbind].
    destruct sh as [lx ly lz]. cbn [log_x log_y log_z] in *.
    assert (TL : forall z y x, (z < 2 ^ lz)%nat -> (y < 2 ^ ly)%nat -> (x < 2 ^ lx)%nat ->
       (tensor_pos lx ly z y x < 2 ^ (lx + ly + lz))%nat).
    { intros z y x Hz Hy Hx. unfold tensor_pos. rewrite <- Nat.add_assoc.
      replace (lx + ly + lz)%nat with ((ly + lx) + lz)%nat by lia. apply mix_lt; auto.
      rewrite (Nat.add_comm ly lx). now apply mix_lt. }
    destruct data as [|d0 [|d1 rest]].
    - exfalso. cbn in VL. pose proof (pow2_pos ln). lia.
    - assert (ln = 0)%nat as -> by (apply (pow2_inj ln 0); cbn in *; lia).
      assert (LA : length d0 = (2 ^ lw)%nat) by (apply WP; now left).
      destruct (Nat.eqb_spec lw 0) as [->|NW].
      + exists [d0]. split; [reflexivity|]. split; [reflexivity|]. split; [exact WP|].
        intros z y x Hz Hy Hx. assert (ly = 0)%nat as -> by lia.
        unfold novel_poly. change (2 ^ (0 - skip))%nat with 1%nat. rewrite sumn_1. unfold novel. cbn [Nat.sub].
        rewrite prodn_0. rewrite Nat.div_1_r, Nat.mul_1_r, Nat.add_0_r. ring.
      + assert (V2 : valid lw d (length [d0; repeat 0 (2 ^ lw)]) (mkShape lx ly lz) coset cb skip).
        { constructor; cbn [log_x log_y log_z]; auto. exists 1%nat. split; [reflexivity|]. lia. }
        destruct (check_params_valid lw d [d0; repeat 0 (2 ^ lw)] (mkShape lx ly lz) coset cb skip) as [[_ CP2]|[NV _]]; [|now elim NV].
        rewrite CP2. cbn [rbind].
        destruct (pad_forward lw lx ly lz coset cb skip VC VD VS d0) as [a' [E LA']]; [lia|auto|].
        rewrite E. cbn [of_opt rbind nth_error obind]. exists [a']. split; [reflexivity|]. split; [reflexivity|].
        split. { intros q [<-|[]]. exact LA'. }
        destruct (forward_core lw lx ly lz coset cb skip VC VD VS [d0; repeat 0 (2 ^ lw)]) as [D' [E' [_ [_ [_ S']]]]].
        { intros q [<-|[<-|[]]]; auto. apply repeat_length. }
        { rewrite Nat.max_r by lia. replace (S lw - lw)%nat with 1%nat by lia. reflexivity. }
        rewrite E in E'. inversion E'; subst D'. clear E'.
        assert (SM : forall (a : list F) s, (s < 2 ^ (lx + ly + lz))%nat ->
           scalar_at lw [a] s = sc lw [a; repeat 0 (2 ^ lw)] s).
        { intros a s Hs. unfold scalar_at, sc. rewrite Nat.div_small; [reflexivity|].
          apply (Nat.lt_le_trans _ _ _ Hs). apply pow2_le. lia. }
        intros z y x Hz Hy Hx. cbv zeta. rewrite SM by auto. rewrite S' by auto.
        rewrite Rs_novel by auto.
        unfold novel_poly. apply sumn_ext. intros j Hj. f_equal. symmetry. apply SM. apply TL; auto.
        set (n := (ly - skip)%nat) in *.
        assert (QB : (y / 2 ^ n < 2 ^ (ly - n))%nat) by (apply div_lt; now replace (n + (ly - n))%nat with ly by (unfold n; lia)).
        pose proof (mix_lt _ _ _ _ QB Hj) as QL. now replace (n + (ly - n))%nat with ly in QL by (unfold n; lia).
    - cbn [rbind].
      destruct (forward_core lw lx ly lz coset cb skip VC VD VS (d0 :: d1 :: rest)) as [D' [E' [L' [W' [_ S']]]]]; auto.
      { apply (size_len lw (mkShape lx ly lz) _ ln); auto. cbn [length] in VL. destruct ln; [cbn in VL; lia|lia]. }
      rewrite E'. cbn [of_opt]. exists D'. split; [reflexivity|]. split; [exact L'|]. split; [exact W'|].
      intros z y x Hz Hy Hx. cbv zeta. change (scalar_at lw D') with (sc lw D'). rewrite S' by auto. now rewrite Rs_novel by auto.
  Qed.

  (** C26: each transform undoes the other, on the whole buffer. *)
  Theorem ntt_roundtrip lw data sh coset cb skip :
    well_packed lw data -> valid lw (length basis) (length data) sh coset cb skip ->
    (exists out, forward_transform lw (length ts) ts data sh coset cb skip = Ok out /\
       length out = length data /\ well_packed lw out /\ inverse_transform lw (length ts) ts out sh coset cb skip = Ok data) /\
    (exists out, inverse_transform lw (length ts) ts data sh coset cb skip = Ok out /\
       length out = length data /\ well_packed lw out /\ forward_transform lw (length ts) ts out sh coset cb skip = Ok data).
  Proof.
    intros WP V. pose proof V as [VS VC VD [ln [VL VZ]]].
    unfold forward_transform, inverse_transform, transform. cbv zeta. rewrite tables_length.
    assert (CPV : forall data' : list (list F), length data' = length data -> check_params lw d data' sh coset cb skip = Ok tt).
    { intros data' EL. destruct (check_params_valid lw d data' sh coset cb skip) as [[_ CP]|[NV _]]; auto.
      elim NV. rewrite EL. exact V. }
    rewrite !CPV by auto. cbn [rbind].
    destruct sh as [lx ly lz]. cbn [log_x log_y log_z] in *.
    destruct data as [|d0 [|d1 rest]].
    - exfalso. cbn in VL. pose proof (pow2_pos ln). lia.
    - assert (ln = 0)%nat as -> by (apply (pow2_inj ln 0); cbn in *; lia).
      assert (LA : length d0 = (2 ^ lw)%nat) by (apply WP; now left).
      destruct (Nat.eqb_spec lw 0) as [->|NW].
      + split; exists [d0]; rewrite CPV by auto; auto.
      + assert (CP2 : forall a : list F, check_params lw d [a; repeat 0 (2 ^ lw)] (mkShape lx ly lz) coset cb skip = Ok tt).
        { intros a. destruct (check_params_valid lw d [a; repeat 0 (2 ^ lw)] (mkShape lx ly lz) coset cb skip) as [[_ CP]|[NV _]]; auto.
          elim NV. constructor; cbn [log_x log_y log_z]; auto. exists 1%nat. split; [reflexivity|]. lia. }
        assert (W2 : wfd lw [d0; repeat 0 (2 ^ lw)]). { intros q [<-|[<-|[]]]; auto. apply repeat_length. }
        assert (L2 : length [d0; repeat 0 (2 ^ lw)] = (2 ^ (Nat.max (lx + ly + lz) (S lw) - lw))%nat).
        { rewrite Nat.max_r by lia. replace (S lw - lw)%nat with 1%nat by lia. reflexivity. }
        rewrite CP2. cbn [rbind]. split.
        * destruct (pad_forward lw lx ly lz coset cb skip VC VD VS d0) as [a' [E LA']]; [lia|auto|].
          rewrite E. cbn [of_opt rbind nth_error obind]. exists [a']. split; [reflexivity|]. split; [reflexivity|]. split; [intros q [<-|[]]; exact LA'|].
          rewrite CPV, CP2 by auto. cbn [rbind].
          destruct (forward_core lw lx ly lz coset cb skip VC VD VS [d0; repeat 0 (2 ^ lw)] W2 L2) as [D' [E' [_ [_ [I' _]]]]].
          rewrite E in E'. inversion E'; subst D'. rewrite I'. reflexivity.
        * destruct (pad_inverse lw lx ly lz coset cb skip VC VD VS d0) as [a' [E LA']]; [lia|auto|].
          rewrite E. cbn [of_opt rbind nth_error obind]. exists [a']. split; [reflexivity|]. split; [reflexivity|]. split; [intros q [<-|[]]; exact LA'|].
          rewrite CPV, CP2 by auto. cbn [rbind].
          destruct (inverse_core lw lx ly lz coset cb skip VC VD VS [d0; repeat 0 (2 ^ lw)] W2 L2) as [D' [E' [_ [_ I']]]].
          rewrite E in E'. inversion E'; subst D'. rewrite I'. reflexivity.
    - cbn [rbind]. set (D := d0 :: d1 :: rest) in *.
      assert (LD : length D = (2 ^ (Nat.max (lx + ly + lz) (S lw) - lw))%nat).
      { apply (size_len lw (mkShape lx ly lz) _ ln); auto. unfold D in VL. cbn [length] in VL. destruct ln; [cbn in VL; lia|lia]. }
      assert (SH : forall D' : list (list F), length D' = length D -> exists a b r, D' = a :: b :: r).
      { intros D' EL. unfold D in EL. destruct D' as [|a [|b r]]; try (cbn in EL; discriminate). eauto. }
      split.
      + destruct (forward_core lw lx ly lz coset cb skip VC VD VS D WP LD) as [D' [E' [L' [W' [I' _]]]]].
        rewrite E'. cbn [of_opt]. exists D'. split; [reflexivity|]. split; [exact L'|]. split; [exact W'|]. rewrite CPV by auto. cbn [rbind].
        destruct (SH D' L') as [a [b [r ->]]]. cbn [rbind]. rewrite I'. reflexivity.
      + destruct (inverse_core lw lx ly lz coset cb skip VC VD VS D WP LD) as [D' [E' [L' [W' I']]]].
        rewrite E'. cbn [of_opt]. exists D'. split; [reflexivity|]. split; [exact L'|]. split; [exact W'|]. rewrite CPV by auto. cbn [rbind].
        destruct (SH D' L') as [a [b [r ->]]]. cbn [rbind]. rewrite I'. reflexivity.
  Qed.

  (** Any other parameters are refused with an error. *)
  Theorem ntt_rejects lw (data : list (list F)) sh coset cb skip :
    ~ valid lw (length basis) (length data) sh coset cb skip ->
    forward_transform lw (length ts) ts data sh coset cb skip = Err /\
    inverse_transform lw (length ts) ts data sh coset cb skip = Err.
  Proof.
    intros NV. unfold forward_transform, inverse_transform, transform. cbv zeta. rewrite tables_length.
    destruct (check_params_valid lw d data sh coset cb skip) as [[V _]|[_ CP]]; [now elim NV|].
    rewrite CP. auto.
  Qed.

  Lemma tables_reachable i t : nth_error ts i = Some t -> reachable F basis i t (d - 1 - i) 0.
  Proof. intros N. destruct HT as [E|E]; [eapply reach_otf|eapply reach_pre]; eauto. Qed.

  (** The subspaces the NTT reports are the evaluation domains of its transforms. *)
  Theorem ntt_subspace_correct n : (1 <= n <= length basis)%nat ->
    ntt_subspace ts n = Some (domain_basis basis n).
  Proof.
    intros [L1 L2]. fold d in L2. unfold ntt_subspace. rewrite tables_length. rewrite (proj2 (Nat.ltb_ge _ _)) by auto.
    destruct (slice_repr n 0) as [t [N R]]; [auto|lia|]. rewrite nth_error_skipn, Nat.add_0_r in N. rewrite N. cbn [obind].
    pose proof (tables_reachable _ _ N) as RE. replace (d - 1 - (d - n))%nat with (n - 1)%nat in RE by lia.
    destruct (twiddle_affine_subspace F H2 basis BI B1 _ _ _ _ RE) as [b [shf [EA [LB [B0 [_ HG]]]]]].
    rewrite EA. cbn [obind fst]. f_equal.
    assert (NZ : forall k, (k < 2 ^ (n - 1))%nat -> elem b (2 * k) = bsum (bet n 0) (n - 1) k).
    { assert (E0 : shf = 0).
      { pose proof (HG 0%nat (pow2_pos _)) as G0. rewrite (tw_get_spec F t _ _ _ 0 R) in G0 by apply pow2_pos.
        rewrite Nat.mul_0_r in G0. apply some_inj in G0. rename G0 into Q. rewrite bsum_0 in Q. unfold elem in Q.
        rewrite (sumn_zero F (length b)) in Q by (intros; now rewrite Nat.bits_0).
        replace shf with (shf + 0) by ring. rewrite <- Q. ring. }
      intros k Hk. pose proof (HG k Hk) as GK. rewrite (tw_get_spec F t _ _ _ k R) in GK by (now replace (n - 1)%nat with (n - 1)%nat by lia).
      apply some_inj in GK. rename GK into Q. rewrite E0 in Q. replace (elem b (2 * k)) with (0 + elem b (2 * k)) by ring. rewrite <- Q. ring. }
    assert (LD : length (domain_basis basis n) = n) by (unfold domain_basis; now rewrite map_length, seq_length).
    assert (GD : forall j, (j < n)%nat -> nth j (domain_basis basis n) 0 = gam n j).
    { intros j Hj. unfold domain_basis. rewrite nth_map_seq by auto. fold d. rewrite norm_vanishing_hat by (auto; fold d; lia).
      reflexivity. }
    apply (nth_ext _ _ 0 0); [lia|]. intros j Hj. rewrite LB in Hj. rewrite GD by lia. destruct j as [|j].
    - rewrite B0. symmetry. unfold gam. apply (shifted_first F H2 _ _ d); [exact BI|lia].
    - assert (Hk : (2 ^ j < 2 ^ (n - 1))%nat) by (apply pow2_lt; lia).
      pose proof (NZ (2 ^ j)%nat Hk) as Q.
      replace (nth (S j) b 0) with (elem b (2 * 2 ^ j)).
      2:{ unfold elem. rewrite (sumn_single F (length b) (S j)).
          - change (2 * 2 ^ j)%nat with (2 ^ S j)%nat. now rewrite Nat.pow2_bits_true.
          - lia.
          - intros i _ Hi. change (2 * 2 ^ j)%nat with (2 ^ S j)%nat. now rewrite Nat.pow2_bits_false by auto. }
      rewrite Q. unfold bsum. rewrite (sumn_single F (n - 1) j).
      + rewrite Nat.pow2_bits_true. unfold bet. cbn [Nat.add]. apply hat_first. unfold gam. apply (shifted_first F H2 _ _ d); [exact BI|lia].
      + lia.
      + intros i _ Hi. now rewrite Nat.pow2_bits_false by auto.
  Qed.

  (** The points returned by [get_subspace_eval] are those at even index of the domain, which is what
      the folding code uses; *)
  Theorem ntt_subspace_eval_correct n j : (1 <= n <= length basis)%nat -> (j < 2 ^ (n - 1))%nat ->
    ntt_subspace_eval ts n j = Some (elem (domain_basis basis n) (2 * j)).
  Proof.
    intros L Hj. pose proof (ntt_subspace_correct n L) as ES. destruct L as [L1 L2]. fold d in L2.
    unfold ntt_subspace_eval. unfold ntt_subspace in ES. rewrite tables_length in *.
    rewrite (proj2 (Nat.ltb_ge _ _)) in * by auto.
    destruct (slice_repr n 0) as [t [N R]]; [auto|lia|]. rewrite nth_error_skipn, Nat.add_0_r in N. rewrite N in *. cbn [obind] in *.
    pose proof (tables_reachable _ _ N) as RE. replace (d - 1 - (d - n))%nat with (n - 1)%nat in RE by lia.
    destruct (twiddle_affine_subspace F H2 basis BI B1 _ _ _ _ RE) as [b [shf [EA [LB [B0 [_ HG]]]]]].
    rewrite EA in ES. cbn [obind fst] in ES. inversion ES as [EB]. rewrite <- EB. rewrite HG by auto. f_equal.
    pose proof (HG 0%nat (pow2_pos _)) as G0. rewrite (tw_get_spec F t _ _ _ 0 R) in G0 by apply pow2_pos.
    rewrite Nat.mul_0_r in G0. apply some_inj in G0. rename G0 into Q. rewrite bsum_0 in Q. unfold elem in Q at 1.
    rewrite (sumn_zero F (length b)) in Q by (intros; now rewrite Nat.bits_0).
    replace shf with (shf + 0) by ring. rewrite <- Q. ring.
  Qed.

  (** ... so it is not the [j]-th basis element promised by its documentation and returned by the
      default implementation, for any dimension. *)
  Theorem ntt_subspace_eval_refuted n : (1 <= n <= length basis)%nat ->
    ntt_subspace_eval ts n 0 = Some 0 /\ default_subspace_eval ts n 0 = Some 1 /\ ntt_subspace_eval ts n 0 <> default_subspace_eval ts n 0.
  Proof.
    intros L. assert (A : ntt_subspace_eval ts n 0 = Some 0).
    { rewrite ntt_subspace_eval_correct by (auto using pow2_pos). f_equal. unfold elem. apply sumn_zero. intros. now rewrite Nat.bits_0. }
    assert (B : default_subspace_eval ts n 0 = Some 1).
    { unfold default_subspace_eval. rewrite ntt_subspace_correct by auto. cbn [obind].
      unfold domain_basis. rewrite (nth_error_nth_eq _ 0 0) by (rewrite map_length, seq_length; lia).
      rewrite nth_map_seq by lia. f_equal. rewrite Nat.add_0_r.
      rewrite norm_vanishing_hat by (auto; lia). change (nth (length basis - n) basis 0) with (bs basis (length basis - n)).
      apply (hat_norm F H2 _ d); [exact BI|unfold d; lia]. }
    split; [exact A|]. split; [exact B|]. rewrite A, B. intros E. inversion E as [E']. now apply (f_10 F).
  Qed.

  (** The subspace of dimension 0 cannot be asked for: the access panics. *)
  Theorem ntt_subspace_zero_refuted : ntt_subspace ts 0 = None.
  Proof.
    unfold ntt_subspace. cbn [Nat.ltb Nat.leb]. rewrite Nat.sub_0_r.
    rewrite (proj2 (nth_error_None _ _)) by lia. reflexivity.
  Qed.
End Props.

(** A transform of two columns of four entries in packed elements of two scalars, on a coset of an
    eight-point domain; and one with a single packed element. *)
Example ntt_ex :
  match otf_generate (els [1; 2; 4]%N) with
  | Ok ts =>
    let data := [els [1; 2]; els [3; 4]; els [5; 6]; els [7; 8]]%N in
    let sh := mkShape 1 2 0 in
    match forward_transform 1 3 ts data sh 1 1 0 with
    | Ok out => match inverse_transform 1 3 ts out sh 1 1 0 with
                | Ok back => map (map bits) back = map (map bits) data /\ map (map bits) out <> map (map bits) data
                | _ => False end
    | _ => False end
  | _ => False end.
Proof. vm_compute. split; [reflexivity|discriminate]. Qed.
