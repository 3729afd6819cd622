(** C60: the subcube accessors of the multilinear adapters return the evaluations of the (partially
    evaluated) polynomial on the subcube. *)
Require Import Coq.setoid_ring.Ring Coq.Arith.Arith Coq.Lists.List Coq.Bool.Bool Coq.NArith.NArith Lia.
From Verif Require Import Base.Fld Base.Lists Base.Sums Base.NatBits Field.Examples.
From Verif Require Import Math.MleSpec Math.MleModel Math.TensorProps Math.MleProofs Math.MleProps Math.SubcubeModel.
Import ListNotations.

Section Props.
  Variable F : field.
  Local Open Scope fld_scope.
  Add Ring Fring : (f_ring F).

  Lemma nth_upd_eq (l : list F) i v : (i < length l)%nat -> nth i (upd l i v) 0 = v.
  Proof. intros H. apply nth_error_nth. now apply nth_error_upd_eq. Qed.
  Lemma nth_upd_ne (l : list F) i v j : j <> i -> nth j (upd l i v) 0 = nth j l 0.
  Proof.
    intros H. pose proof (nth_error_upd_ne l i v j H) as E.
    destruct (nth_error l j) as [a|] eqn:E'.
    - now rewrite (nth_error_nth _ _ 0 E), (nth_error_nth _ _ 0 E').
    - apply nth_error_None in E, E'. now rewrite !nth_overflow.
  Qed.

  (** A loop that writes cell [i] in iteration [i]. *)
  Lemma write_loop (f : nat -> option F) (g : nat -> F) n (out : list F) :
    (forall i, (i < n)%nat -> f i = Some (g i)) -> (n <= length out)%nat ->
    exists o, ofold (fun o i => do x <- f i; if (i <? length o)%nat then Some (upd o i x) else None) (seq 0 n) out = Some o /\
      length o = length out /\ (forall i, (i < n)%nat -> nth i o 0 = g i) /\
      (forall i, (n <= i)%nat -> nth i o 0 = nth i out 0).
  Proof.
    intros Hf Hn.
    destruct (ofold_inv (fun o i => do x <- f i; if (i <? length o)%nat then Some (upd o i x) else None)
      (fun k o => length o = length out /\ (forall i, (i < k)%nat -> nth i o 0 = g i) /\
                  (forall i, (k <= i)%nat -> nth i o 0 = nth i out 0)) (seq 0 n) out 0) as [o [E H]].
    - split; auto. split; [intros; lia|auto].
    - intros i b a Hi [L [H1 H2]]. rewrite nth_error_seq in Hi. destruct (Nat.ltb_spec i n) as [Li|]; [|discriminate].
      injection Hi as <-. cbn [Nat.add] in *. rewrite Hf by auto. cbn [obind]. rewrite L, (proj2 (Nat.ltb_lt i (length out))) by lia.
      eexists. split; [reflexivity|]. rewrite upd_length. split; auto. split; intros j Hj.
      + destruct (Nat.eq_dec j i) as [->|]; [apply nth_upd_eq; lia|rewrite nth_upd_ne by auto; apply H1; lia].
      + rewrite nth_upd_ne by lia. apply H2. lia.
    - rewrite seq_length in H. exists o. cbn [Nat.add] in H. tauto.
  Qed.

  Lemma table_error lw (m : mlext F) x : mle_wf lw m -> (x < 2 ^ me_mu m)%nat -> nth_error (me_evals m) x = Some (table m x).
  Proof. intros W H. pose proof (wf_ge F lw m W). apply nth_error_nth'. lia. Qed.

  (** Values of the polynomial with its low (high) variables substituted. *)
  Lemma mle_low_cube (v : nat -> F) point r y : (y < 2 ^ r)%nat ->
    mle v (point ++ vertex r y) = sumn (2 ^ length point) (fun i => eqw point i * v (y * 2 ^ length point + i)%nat).
  Proof.
    intros H. rewrite mle_app_low, mle_on_cube by auto. apply sumn_ext. intros i Hi.
    replace (i + 2 ^ length point * y)%nat with (y * 2 ^ length point + i)%nat by lia. ring.
  Qed.
  Lemma mle_high_cube (v : nat -> F) point r y : (y < 2 ^ r)%nat ->
    mle v (vertex r y ++ point) = sumn (2 ^ length point) (fun i => eqw point i * v (i * 2 ^ r + y)%nat).
  Proof.
    intros H. rewrite mle_app_high, vertex_length.
    rewrite (mle_on_cube F r (fun x => mle (fun y0 => v (x + 2 ^ r * y0)%nat) point)) by auto. apply sumn_ext. intros i Hi.
    replace (y + 2 ^ r * i)%nat with (i * 2 ^ r + y)%nat by lia. ring.
  Qed.

  (** the subcube fits *)
  Definition fits (n qn sv idx : nat) : Prop := (qn + sv <= n)%nat /\ (idx < 2 ^ (n - qn - sv))%nat.

  Lemma fits_lt n qn sv idx s : fits n qn sv idx -> (s < 2 ^ sv)%nat -> (idx * 2 ^ sv + s < 2 ^ (n - qn))%nat.
  Proof.
    intros [H1 H2] Hs. replace (n - qn)%nat with (sv + (n - qn - sv))%nat by lia. now apply mix_lt.
  Qed.

  Lemma validate_fits n qn sv idx le (out : list F) k : length out = (k * 2 ^ le)%nat ->
    (validate_subcube n qn sv idx le (length out) = true <-> fits n qn sv idx /\ k = (2 ^ (sv - le))%nat).
  Proof.
    intros HL. unfold validate_subcube, fits. rewrite HL, Nat.div_mul by (apply Nat.pow_nonzero; lia).
    rewrite !andb_true_iff, Nat.leb_le, Nat.ltb_lt, Nat.eqb_eq. tauto.
  Qed.

  Lemma fits_dec n qn sv idx : {fits n qn sv idx} + {~ fits n qn sv idx}.
  Proof.
    unfold fits. destruct (le_dec (qn + sv) n), (lt_dec idx (2 ^ (n - qn - sv))); firstorder.
  Qed.

  Lemma sv_len sv le : (2 ^ sv <= 2 ^ (sv - le) * 2 ^ le)%nat.
  Proof. rewrite <- Nat.pow_add_r. apply pow2_le. lia. Qed.

  (** C60, partial evaluation of the low variables. *)
  Theorem subcube_partial_low_correct lw le c (m : mlext F) q point sv idx (out : list F) k :
    mle_wf lw m -> query_holds le c q point -> length out = (k * 2 ^ le)%nat ->
    let rest := (me_mu m - length point)%nat in
    (length point + sv <= me_mu m)%nat /\ (idx < 2 ^ (rest - sv))%nat /\ k = (2 ^ (sv - le))%nat ->
    exists o, subcube_partial_low_evals le m q sv idx out = Ok o /\ length o = length out /\
      (forall s, (s < 2 ^ sv)%nat -> nth s o 0 = mle (table m) (point ++ vertex rest (idx * 2 ^ sv + s))) /\
      (forall s, (2 ^ sv <= s)%nat -> nth s o 0 = nth s out 0).
  Proof.
    cbv zeta. intros W HQ HL [H1 [H2 HK]].
    assert (HF : fits (me_mu m) (length point) sv idx) by (split; auto).
    unfold subcube_partial_low_evals. rewrite (proj1 HQ).
    rewrite (proj2 (validate_fits _ _ _ _ _ _ _ HL)) by auto. cbn [negb].
    destruct (expansion_correct F le c q point HQ) as [ex [Ex [Lx Nx]]]. rewrite Ex. cbn [obind].
    set (qn := length point) in *.
    assert (Lq : (2 ^ qn <= length ex)%nat) by (rewrite Lx; apply sv_len).
    destruct (write_loop (fun s => osum (2 ^ qn) (fun i => do a <- nth_error ex i;
                do b <- nth_error (me_evals m) (idx * 2 ^ (qn + sv) + s * 2 ^ qn + i)%nat; Some (a * b)))
              (fun s => mle (table m) (point ++ vertex (me_mu m - qn) (idx * 2 ^ sv + s))) (2 ^ sv) out)
      as [o [E [L [N1 N2]]]].
    - intros s Hs. pose proof (fits_lt _ _ _ _ s HF Hs) as B.
      rewrite (osum_ok F _ _ (fun i => eqw point i * table m ((idx * 2 ^ sv + s) * 2 ^ qn + i)%nat)).
      + now rewrite mle_low_cube by auto.
      + intros i Hi. rewrite (nth_error_nth' ex 0) by lia. cbn [obind]. rewrite Nx by auto.
        replace (idx * 2 ^ (qn + sv) + s * 2 ^ qn + i)%nat with ((idx * 2 ^ sv + s) * 2 ^ qn + i)%nat
          by (rewrite Nat.pow_add_r; nia).
        rewrite (table_error lw) by (auto; replace (me_mu m) with (qn + (me_mu m - qn))%nat by (destruct HF; lia); now apply mix_lt).
        reflexivity.
    - rewrite HL, HK. apply sv_len.
    - rewrite E. cbn [of_opt]. exists o. auto.
  Qed.

  Theorem subcube_partial_low_rejects lw le c (m : mlext F) q point sv idx (out : list F) k :
    mle_wf lw m -> query_holds le c q point -> length out = (k * 2 ^ le)%nat ->
    ~ ((length point + sv <= me_mu m)%nat /\ (idx < 2 ^ (me_mu m - length point - sv))%nat /\ k = (2 ^ (sv - le))%nat) ->
    subcube_partial_low_evals le m q sv idx out = Err /\ subcube_partial_high_evals le m q sv idx out = Err.
  Proof.
    intros W HQ HL HN. unfold subcube_partial_low_evals, subcube_partial_high_evals. rewrite (proj1 HQ).
    destruct (validate_subcube _ _ _ _ _ _) eqn:E; [|auto].
    exfalso. apply HN. apply (validate_fits _ _ _ _ _ _ _ HL) in E. unfold fits in E. tauto.
  Qed.

  Lemma lor_lt a b n : (a < 2 ^ n)%nat -> (b < 2 ^ n)%nat -> (Nat.lor a b < 2 ^ n)%nat.
  Proof.
    intros Ha Hb. destruct (Nat.eq_dec (Nat.lor a b) 0) as [->|NZ]; [apply pow2_pos|].
    apply Nat.log2_lt_pow2; [lia|].
    rewrite Nat.log2_lor. destruct (Nat.eq_dec a 0) as [->|Na], (Nat.eq_dec b 0) as [->|Nb].
    - exfalso. apply NZ. reflexivity.
    - rewrite Nat.max_r by (cbn; lia). apply Nat.log2_lt_pow2; lia.
    - rewrite Nat.max_l by (cbn; lia). apply Nat.log2_lt_pow2; lia.
    - apply Nat.max_lub_lt; apply Nat.log2_lt_pow2; lia.
  Qed.

  (** one query index adds its multiple of the table *)
  Lemma add_pass (f : nat -> option F) (g : nat -> F) (factor : F) (o : list F) :
    (forall j, (j < length o)%nat -> f j = Some (g j)) ->
    exists o', omap (fun jo => do e <- f (fst jo); Some (snd jo + factor * e)) (combine (seq 0 (length o)) o) = Some o' /\
      length o' = length o /\ forall j, (j < length o)%nat -> nth j o' 0 = nth j o 0 + factor * g j.
  Proof.
    intros Hf. exists (map (fun jo : nat * F => snd jo + factor * g (fst jo)) (combine (seq 0 (length o)) o)). split; [|split].
    - apply omap_spec. split; [now rewrite map_length|]. intros i [j a] Hi.
      rewrite (map_nth_error _ _ _ Hi). apply nth_error_In in Hi. apply in_combine_l in Hi. apply in_seq in Hi.
      cbn [fst snd]. rewrite Hf by lia. reflexivity.
    - rewrite map_length, combine_length, seq_length. lia.
    - intros j Hj. rewrite (nth_map_lt _ _ _ _ (0%nat, 0)) by (rewrite combine_length, seq_length; lia).
      rewrite combine_nth by (now rewrite seq_length). cbn [fst snd]. now rewrite seq_nth by auto.
  Qed.

  Lemma clear_loop n : forall s (o : list F), (s + n <= length o)%nat ->
    length (fold_left (fun o i => upd o i 0) (seq s n) o) = length o /\
    forall j, nth j (fold_left (fun o i => upd o i 0) (seq s n) o) 0 =
              if (s <=? j)%nat && (j <? s + n)%nat then 0 else nth j o 0.
  Proof.
    induction n as [|n IH]; intros s o H; cbn [seq fold_left].
    - split; auto. intros j. destruct (Nat.leb_spec s j), (Nat.ltb_spec j (s + 0)); cbn; auto; lia.
    - destruct (IH (S s) (upd o s 0)) as [L N]; [rewrite upd_length; lia|]. rewrite L, upd_length. split; auto.
      intros j. rewrite N. destruct (Nat.eq_dec j s) as [->|NE].
      + rewrite nth_upd_eq by lia.
        destruct (Nat.leb_spec (S s) s), (Nat.leb_spec s s), (Nat.ltb_spec s (s + S n)); cbn; auto; try lia.
      + rewrite nth_upd_ne by auto.
        destruct (Nat.leb_spec (S s) j), (Nat.leb_spec s j), (Nat.ltb_spec j (S s + n)), (Nat.ltb_spec j (s + S n)); cbn; auto; lia.
  Qed.

  (** C60, partial evaluation of the high variables; scalars beyond the subcube are zero. *)
  Theorem subcube_partial_high_correct lw le c (m : mlext F) q point sv idx (out : list F) k :
    mle_wf lw m -> (le <= lw)%nat -> query_holds le c q point -> length out = (k * 2 ^ le)%nat ->
    let rest := (me_mu m - length point)%nat in
    (length point + sv <= me_mu m)%nat /\ (idx < 2 ^ (rest - sv))%nat /\ k = (2 ^ (sv - le))%nat ->
    exists o, subcube_partial_high_evals le m q sv idx out = Ok o /\ length o = length out /\
      (forall s, (s < 2 ^ sv)%nat -> nth s o 0 = mle (table m) (vertex rest (idx * 2 ^ sv + s) ++ point)) /\
      (forall s, (2 ^ sv <= s)%nat -> nth s o 0 = 0).
  Proof.
    cbv zeta. intros W Hw HQ HL [H1 [H2 HK]].
    assert (HF : fits (me_mu m) (length point) sv idx) by (split; auto).
    unfold subcube_partial_high_evals. rewrite (proj1 HQ).
    rewrite (proj2 (validate_fits _ _ _ _ _ _ _ HL)) by auto. cbn [negb].
    destruct (expansion_correct F le c q point HQ) as [ex [Ex [Lx Nx]]]. rewrite Ex. cbn [obind].
    set (qn := length point) in *. set (n := me_mu m) in *. set (r := (n - qn)%nat) in *.
    assert (Lq : (2 ^ qn <= length ex)%nat) by (rewrite Lx; apply sv_len).
    assert (LO : length out = (2 ^ Nat.max sv le)%nat).
    { rewrite HL, HK, <- Nat.pow_add_r. f_equal. lia. }
    (* the index of the scalar read *)
    pose (ix := fun qi j => Nat.lor (Nat.lor (Nat.shiftl idx sv) (Nat.shiftl qi r)) j).
    assert (IXB : forall qi j, (qi < 2 ^ qn)%nat -> (j < length out)%nat -> (ix qi j < length (me_evals m))%nat).
    { intros qi j Hq Hj. red in W. rewrite W. fold n. rewrite <- Nat.pow_add_r.
      assert (B1 : (Nat.shiftl idx sv < 2 ^ n)%nat).
      { rewrite Nat.shiftl_mul_pow2. pose proof (fits_lt _ _ _ _ 0 HF (pow2_pos sv)) as B. fold r in B.
        assert (2 ^ r <= 2 ^ n)%nat by (apply pow2_le; unfold r; lia). lia. }
      assert (B2 : (Nat.shiftl qi r < 2 ^ n)%nat).
      { rewrite Nat.shiftl_mul_pow2. replace n with (r + qn)%nat by (unfold r; lia). rewrite Nat.pow_add_r.
        rewrite (Nat.mul_comm (2 ^ r)). apply Nat.mul_lt_mono_pos_r; auto. apply pow2_pos. }
      unfold ix. apply lor_lt; [apply lor_lt|].
      - eapply Nat.lt_le_trans; [exact B1|]. apply pow2_le. lia.
      - eapply Nat.lt_le_trans; [exact B2|]. apply pow2_le. lia.
      - eapply Nat.lt_le_trans; [exact Hj|]. rewrite LO. apply pow2_le. lia. }
    assert (IXV : forall qi j, (j < 2 ^ sv)%nat -> ix qi j = (qi * 2 ^ r + (idx * 2 ^ sv + j))%nat).
    { intros qi j Hj. unfold ix. rewrite (Nat.lor_comm (Nat.shiftl idx sv)), <- Nat.lor_assoc.
      rewrite (lor_shl idx sv j) by auto. rewrite lor_shl; [reflexivity|]. now apply fits_lt. }
    destruct (ofold_inv (fun o qi =>
        do factor <- nth_error ex qi;
        omap (fun jo => do e <- nth_error (me_evals m) (Nat.lor (Nat.lor (Nat.shiftl idx sv) (Nat.shiftl qi r)) (fst jo));
                        Some (snd jo + factor * e)) (combine (seq 0 (length o)) o))
      (fun a o => length o = length out /\ forall j, (j < length out)%nat ->
          nth j o 0 = sumn a (fun qi => eqw point qi * nth (ix qi j) (me_evals m) 0))
      (seq 0 (2 ^ qn)) (repeat 0 (length out)) 0) as [o [E [L N]]].
    - rewrite repeat_length. split; auto. intros j Hj. rewrite sumn_0. apply nth_repeat.
    - intros i b a Hi [La Na]. rewrite nth_error_seq in Hi. destruct (Nat.ltb_spec i (2 ^ qn)) as [Li|]; [|discriminate].
      injection Hi as <-. cbn [Nat.add] in *. rewrite (nth_error_nth' ex 0) by lia. cbn [obind]. rewrite Nx by auto.
      destruct (add_pass (fun j => nth_error (me_evals m) (Nat.lor (Nat.lor (Nat.shiftl idx sv) (Nat.shiftl i r)) j))
                         (fun j => nth (ix i j) (me_evals m) 0) (eqw point i) a) as [o' [E' [L' N']]].
      { intros j Hj. rewrite La in Hj. now apply nth_error_nth', IXB. }
      exists o'. split; [exact E'|]. split; [congruence|]. intros j Hj. rewrite N' by lia. rewrite Na by auto.
      rewrite sumn_S. reflexivity.
    - rewrite seq_length in N. cbn [Nat.add] in N.
      assert (G : forall s, (s < 2 ^ sv)%nat -> nth s o 0 = mle (table m) (vertex r (idx * 2 ^ sv + s) ++ point)).
      { intros s Hs. rewrite mle_high_cube by (now apply fits_lt). fold qn.
        rewrite N by (rewrite LO; eapply Nat.lt_le_trans; [exact Hs|apply pow2_le; lia]).
        apply sumn_ext. intros i Hi. now rewrite IXV by auto. }
      fold r in E |- *. rewrite E. cbn [obind]. destruct (Nat.ltb_spec sv le) as [Ls|Ls].
      + rewrite L, LO, Nat.max_r by lia. rewrite (proj2 (Nat.ltb_ge (2 ^ le) (2 ^ le))) by lia. cbn [of_opt].
        assert (PL : (2 ^ sv <= 2 ^ le)%nat) by (apply pow2_le; lia).
        destruct (clear_loop (2 ^ le - 2 ^ sv) (2 ^ sv) o) as [CL CN]; [rewrite L, LO, Nat.max_r; lia|].
        eexists. split; [reflexivity|]. split; [now rewrite CL, L, LO, Nat.max_r by lia|]. split; intros s Hs.
        * rewrite CN. rewrite (proj2 (Nat.leb_gt (2 ^ sv) s)) by lia. cbn [andb]. auto.
        * rewrite CN. rewrite (proj2 (Nat.leb_le (2 ^ sv) s)) by lia. cbn [andb].
          destruct (Nat.ltb_spec s (2 ^ sv + (2 ^ le - 2 ^ sv))); auto. apply nth_overflow. rewrite L, LO, Nat.max_r; lia.
      + cbn [of_opt]. exists o. split; auto. split; auto. split; auto. intros s Hs. apply nth_overflow.
        rewrite L, LO, Nat.max_l; lia.
  Qed.

  (** C60, plain subcubes. *)
  Theorem subcube_evals_correct direct lw le (m : mlext F) sv idx (out : list F) k :
    mle_wf lw m -> (direct = true -> lw = le) -> length out = (k * 2 ^ le)%nat ->
    if ((sv <=? me_mu m) && (k =? 2 ^ (sv - le)) && (idx <? 2 ^ (me_mu m - sv)))%nat%bool
    then exists o, subcube_evals direct le m sv idx out = Ok o /\ length o = length out /\
           forall s, (s < 2 ^ sv)%nat -> nth s o 0 = table m (idx * 2 ^ sv + s)
    else subcube_evals direct le m sv idx out = Err.
  Proof.
    intros W HD HL. unfold subcube_evals. rewrite HL, Nat.div_mul by (apply Nat.pow_nonzero; lia).
    destruct (Nat.leb_spec sv (me_mu m)), (Nat.ltb_spec (me_mu m) sv); try lia; cbn [andb]; auto.
    destruct (Nat.eqb_spec k (2 ^ (sv - le))) as [HK|]; cbn [andb negb]; auto.
    destruct (Nat.ltb_spec idx (2 ^ (me_mu m - sv))) as [HI|HI], (Nat.leb_spec (2 ^ (me_mu m - sv)) idx); try lia; auto.
    assert (B : forall s, (s < 2 ^ sv)%nat -> (idx * 2 ^ sv + s < 2 ^ me_mu m)%nat).
    { intros s Hs. replace (me_mu m) with (sv + (me_mu m - sv))%nat by lia. now apply mix_lt. }
    destruct direct; cbn [andb].
    - specialize (HD eq_refl). subst lw. destruct (Nat.leb_spec le sv) as [Ls|Ls].
      + assert (P : (2 ^ (sv - le) * 2 ^ le = 2 ^ sv)%nat) by (rewrite <- Nat.pow_add_r; f_equal; lia).
        assert (LE : (length (me_evals m) = 2 ^ me_mu m)%nat).
        { red in W. rewrite W, <- Nat.pow_add_r. f_equal. lia. }
        assert (BB : ((idx + 1) * 2 ^ sv <= 2 ^ me_mu m)%nat).
        { replace (me_mu m) with (sv + (me_mu m - sv))%nat by lia. rewrite Nat.pow_add_r. nia. }
        rewrite (proj2 (Nat.leb_le _ _)) by (rewrite LE, <- Nat.mul_assoc, P; exact BB).
        eexists. split; [reflexivity|]. replace ((idx + 1) * 2 ^ (sv - le) - idx * 2 ^ (sv - le))%nat with (2 ^ (sv - le))%nat by nia.
        rewrite P, <- Nat.mul_assoc, P. rewrite firstn_length, skipn_length, LE, HK, P. split; [lia|].
        intros s Hs. unfold table. rewrite <- nth_skipn'.
        assert (nth_firstn' : forall (l : list F) n i, (i < n)%nat -> nth i (firstn n l) 0 = nth i l 0).
        { clear. induction l as [|a l IH]; intros [|n] [|i] Hi; cbn; auto; try lia. apply IH. lia. }
        now apply nth_firstn'.
      + destruct (write_loop (fun i => nth_error (me_evals m) (idx * 2 ^ sv + i)%nat) (fun i => table m (idx * 2 ^ sv + i)) (2 ^ sv) out)
          as [o [E [L [N _]]]].
        { intros i Hi. apply (table_error le); auto. }
        { rewrite HL, HK. apply sv_len. }
        rewrite E. cbn [of_opt]. exists o. split; auto. split; auto. congruence.
    - destruct (write_loop (fun i => nth_error (me_evals m) (idx * 2 ^ sv + i)%nat) (fun i => table m (idx * 2 ^ sv + i)) (2 ^ sv) out)
          as [o [E [L [N _]]]].
      { intros i Hi. apply (table_error lw); auto. }
      { rewrite HL, HK. apply sv_len. }
      rewrite E. cbn [of_opt]. exists o. split; auto. split; auto. congruence.
  Qed.
End Props.

(** C60 as documented: a subcube of the partially evaluated polynomial. *)
Theorem subcube_partial_low_as_documented (F : field) lw le c (m : mlext F) q point sv idx (out : list F) k direct :
  mle_wf lw m -> query_holds le c q point -> length out = (k * 2 ^ le)%nat ->
  (length point + sv <= me_mu m)%nat -> (idx < 2 ^ (me_mu m - length point - sv))%nat -> k = (2 ^ (sv - le))%nat ->
  exists m' o o', evaluate_partial_low le m q = Ok m' /\ subcube_evals direct le m' sv idx out = Ok o' /\
    subcube_partial_low_evals le m q sv idx out = Ok o /\ forall s, (s < 2 ^ sv)%nat -> nth s o f0 = nth s o' f0.
Proof.
  intros W HQ HL H1 H2 HK.
  pose proof (evaluate_partial_low_correct F lw le c m q point W HQ) as P.
  rewrite (proj2 (Nat.leb_le (length point) (me_mu m))) in P by lia. destruct P as [m' [E [W' [M' V]]]].
  destruct (subcube_partial_low_correct F lw le c m q point sv idx out k W HQ HL) as [o [Eo [Lo [No _]]]]; [auto|].
  pose proof (subcube_evals_correct F direct le le m' sv idx out k W' ltac:(auto) HL) as S.
  rewrite M' in S. rewrite (proj2 (Nat.leb_le sv _)), (proj2 (Nat.eqb_eq k _)), (proj2 (Nat.ltb_lt idx _)) in S by lia.
  destruct S as [o' [Eo' [Lo' No']]]. exists m', o, o'. split; auto. split; auto. split; auto.
  intros s Hs. rewrite No, No' by auto. rewrite <- V by (now rewrite vertex_length, M').
  apply mle_on_cube. apply fits_lt; auto. split; auto.
Qed.

Theorem subcube_partial_high_as_documented (F : field) same lw le c (m : mlext F) q point sv idx (out uninit : list F) k direct :
  mle_wf lw m -> (le <= lw)%nat -> (same = true -> lw = le) -> query_holds le c q point -> length out = (k * 2 ^ le)%nat ->
  length uninit = (2 ^ (me_mu m - length point - le) * 2 ^ le)%nat ->
  (length point + sv <= me_mu m)%nat -> (idx < 2 ^ (me_mu m - length point - sv))%nat -> k = (2 ^ (sv - le))%nat ->
  exists m' o o', evaluate_partial_high same le m q uninit = Ok m' /\ subcube_evals direct le m' sv idx out = Ok o' /\
    subcube_partial_high_evals le m q sv idx out = Ok o /\ forall s, (s < 2 ^ sv)%nat -> nth s o f0 = nth s o' f0.
Proof.
  intros W Hw HS HQ HL HU H1 H2 HK.
  pose proof (evaluate_partial_high_correct F same lw le c m q point uninit W HQ HS HU) as P.
  rewrite (proj2 (Nat.leb_le (length point) (me_mu m))) in P by lia. destruct P as [m' [E [W' [M' V]]]].
  destruct (subcube_partial_high_correct F lw le c m q point sv idx out k W Hw HQ HL) as [o [Eo [Lo [No _]]]]; [auto|].
  pose proof (subcube_evals_correct F direct le le m' sv idx out k W' ltac:(auto) HL) as S.
  rewrite M' in S. rewrite (proj2 (Nat.leb_le sv _)), (proj2 (Nat.eqb_eq k _)), (proj2 (Nat.ltb_lt idx _)) in S by lia.
  destruct S as [o' [Eo' [Lo' No']]]. exists m', o, o'. split; auto. split; auto. split; auto.
  intros s Hs. rewrite No, No' by auto. rewrite <- V by (now rewrite vertex_length, M').
  apply mle_on_cube. apply fits_lt; auto. split; auto.
Qed.

Example subcube_partial_ex :
  shown (try q <- query_expand 1 (els [2; 7]%N);
         subcube_partial_low_evals 1 (mkMle 4 (els [1; 2; 3; 4; 5; 6; 7; 9; 10; 11; 12; 13; 14; 15; 0; 3]%N)) q 1 1 (els [0; 0]%N))
  = shown (try q <- query_expand 1 (els [2; 7]%N);
           try m <- evaluate_partial_low 1 (mkMle 4 (els [1; 2; 3; 4; 5; 6; 7; 9; 10; 11; 12; 13; 14; 15; 0; 3]%N)) q;
           subcube_evals true 1 m 1 1 (els [0; 0]%N)) /\
  (match shown (try q <- query_expand 1 (els [2; 7]%N);
         subcube_partial_high_evals 1 (mkMle 4 (els [1; 2; 3; 4; 5; 6; 7; 9; 10; 11; 12; 13; 14; 15; 0; 3]%N)) q 1 1 (els [0; 0]%N))
   with Ok [a; b] => negb (N.eqb a b) | _ => false end) = true.
Proof. vm_compute. split; reflexivity. Qed.
