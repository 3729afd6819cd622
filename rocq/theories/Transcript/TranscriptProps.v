(** Properties of the transcripts (C33). *)
Require Import Coq.NArith.NArith Coq.Arith.Arith Coq.Lists.List Coq.Bool.Bool Lia.
Require Import Verif.Base.Sums Verif.Base.Lists Verif.Transcript.SerModel Verif.Transcript.SerProofs.
Require Import Verif.Transcript.SerProps.
Require Import Verif.Transcript.ChallengerModel Verif.Transcript.ChallengerSpec Verif.Transcript.ChallengerProps.
Require Import Verif.Transcript.ChallengerBinding Verif.Transcript.TranscriptModel.
Import ListNotations.
Local Close Scope N_scope. Local Open Scope nat_scope.

Section Transcript.
  Variable hash : list byte -> list byte.
  Variable osz bsz : nat.
  Variable utf8 : list byte -> bool.
  Variable room : nat.
  Hypothesis hash_len : forall x, length (hash x) = osz.
  Hypothesis osz_pos : 0 < osz.
  Hypothesis bsz_pos : 0 < bsz.

  Notation cinv := (cinv osz bsz).
  Notation obs := (sponge_observe osz).

  Lemma obs_app s a b : obs (obs s a) b = obs s (a ++ b).
  Proof. unfold sponge_observe. cbn [absorbing absorbed]. now rewrite app_assoc. Qed.

  (** Bytes observed piece by piece are observed as a whole; nothing happens when there are none. *)
  Lemma pieces_ok alloc : (forall p, 0 < alloc p) -> forall bs fuel pos c, length bs <= fuel -> cinv c ->
    exists c', observe_pieces bsz alloc fuel pos c bs = Ok c' /\ cinv c' /\
      view c' = match bs with [] => view c | _ => obs (view c) bs end.
  Proof.
    intros HA bs fuel. revert bs. induction fuel; intros bs pos c L I.
    - destruct bs; [|cbn in L; lia]. exists c. auto.
    - destruct bs as [|x bs]; [exists c; auto|].
      set (m := x :: bs) in *.
      change (exists c', (let cnt := Nat.min (alloc pos) (length m) in
        try c1 <- of_opt (observe bsz c (firstn cnt m));
        observe_pieces bsz alloc fuel (pos + cnt) c1 (skipn cnt m)) = Ok c' /\ cinv c' /\ view c' = obs (view c) m).
      cbv zeta. set (cnt := Nat.min (alloc pos) (length m)).
      assert (Hc : 0 < cnt) by (pose proof (HA pos); unfold cnt, m; cbn [length]; lia).
      destruct (observe_ok osz bsz osz_pos bsz_pos c (firstn cnt m) I) as (c1 & -> & I1 & V1).
      cbn [of_opt rbind].
      destruct (IHfuel (skipn cnt m) (pos + cnt) c1) as (c' & -> & I' & V'); auto.
      { rewrite skipn_length. lia. }
      exists c'. split; [reflexivity|]. split; [exact I'|]. rewrite V', V1.
      destruct (skipn cnt m) as [|y r] eqn:E.
      + rewrite <- (firstn_skipn cnt m) at 2. now rewrite E, app_nil_r.
      + rewrite obs_app. f_equal. rewrite <- E. apply firstn_skipn.
  Qed.

  Lemma consumed_app b rest : consumed (b ++ rest) rest = b.
  Proof.
    unfold consumed. rewrite app_length. replace (length b + length rest - length rest) with (length b) by lia.
    now rewrite firstn_app, Nat.sub_diag, firstn_all, app_nil_r.
  Qed.

  Lemma sample_same c1 c2 n : cinv c1 -> cinv c2 -> view c1 = view c2 -> exists out c1' c2',
    t_sample hash osz c1 n = Ok (out, c1') /\ t_sample hash osz c2 n = Ok (out, c2') /\
    cinv c1' /\ cinv c2' /\ view c1' = view c2'.
  Proof.
    intros I1 I2 V. unfold t_sample.
    destruct (sample_ok hash osz bsz hash_len osz_pos bsz_pos c1 n I1) as (c1' & -> & J1 & W1).
    destruct (sample_ok hash osz bsz hash_len osz_pos bsz_pos c2 n I2) as (c2' & -> & J2 & W2).
    cbn [of_opt]. rewrite V in *. eexists _, c1', c2'. repeat split; auto. congruence.
  Qed.

  Lemma observe_same c1 c2 bs : cinv c1 -> cinv c2 -> view c1 = view c2 -> exists c1' c2',
    observe bsz c1 bs = Some c1' /\ observe bsz c2 bs = Some c2' /\
    cinv c1' /\ cinv c2' /\ view c1' = view c2'.
  Proof.
    intros I1 I2 V.
    destruct (observe_ok osz bsz osz_pos bsz_pos c1 bs I1) as (c1' & -> & J1 & W1).
    destruct (observe_ok osz bsz osz_pos bsz_pos c2 bs I2) as (c2' & -> & J2 & W2).
    exists c1', c2'. repeat split; auto. congruence.
  Qed.

  (** One step of the prover and the mirrored step of the verifier. *)
  Lemma step_sim debug ap av o tape c items tape' c' cv rest :
    (forall p, 0 < ap p) -> (forall p, 0 < av p) -> op_ok utf8 o -> cinv c -> cinv cv -> view c = view cv ->
    prover_step hash osz bsz room debug ap (tape, c) o = Ok (items, (tape', c')) ->
    exists bs, tape' = tape ++ bs /\ cinv c' /\ exists cv',
      verifier_step hash osz bsz utf8 room debug av (bs ++ rest, cv) (mirror o) = Ok (items, (rest, cv')) /\
      cinv cv' /\ view c' = view cv'.
  Proof.
    intros Ha Hv OK I Iv V E.
    destruct o as [t v|t v|t v|n|b|m]; cbn [prover_step] in E.
    - apply rbind_ok in E as [bs [E1 E]]. apply rbind_ok in E as [c1 [E2 E]]. apply ok_inj in E.
      injection E as <- <- <-. exists bs. split; [reflexivity|].
      destruct (ser t v room) as [b'| |] eqn:Es; try discriminate. apply ok_inj in E1. subst b'.
      destruct OK as [O W].
      destruct (pieces_ok ap Ha bs (length bs) (length tape) c (le_n _) I) as (x & Ex & Ix & Vx).
      rewrite Ex in E2. apply ok_inj in E2. subst x. split; [exact Ix|].
      destruct (pieces_ok av Hv bs (length bs) (length (bs ++ rest)) cv (le_n _) Iv) as (cv' & Ev & Ixv & Vxv).
      exists cv'. cbn [mirror verifier_step]. 
      rewrite (serialize_roundtrip utf8 t v room bs rest O W Es). cbn [rbind].
      rewrite consumed_app, Ev. cbn [rbind]. split; [reflexivity|]. split; [exact Ixv|].
      rewrite Vx, Vxv, V. reflexivity.
    - apply rbind_ok in E as [bs [E1 E]]. apply ok_inj in E.
      injection E as <- <- <-. exists bs. split; [reflexivity|]. split; [exact I|].
      destruct (ser t v room) as [b'| |] eqn:Es; try discriminate. apply ok_inj in E1. subst b'.
      destruct OK as [O W]. exists cv. cbn [mirror verifier_step].
      rewrite (serialize_roundtrip utf8 t v room bs rest O W Es). cbn [rbind]. auto.
    - apply rbind_ok in E as [bs [E1 E]]. apply rbind_ok in E as [c1 [E2 E]]. apply ok_inj in E.
      injection E as <- <- <-. exists []. rewrite app_nil_r. split; [reflexivity|].
      cbn [mirror verifier_step app]. rewrite E1. cbn [rbind].
      destruct (observe_same c cv bs I Iv V) as (a & b & Ea & Eb & Ia & Ib & Vab).
      rewrite Ea in E2. cbn in E2. apply ok_inj in E2. subst a. split; [exact Ia|].
      exists b. rewrite Eb. cbn. auto.
    - apply rbind_ok in E as [[bs c1] [E1 E]]. apply ok_inj in E. injection E as <- <- <-.
      exists []. rewrite app_nil_r. split; [reflexivity|]. cbn [mirror verifier_step app].
      destruct (sample_same c cv n I Iv V) as (o & a & b & Ea & Eb & Ia & Ib & Vab).
      rewrite Ea in E1. apply ok_inj in E1. injection E1 as <- <-. split; [exact Ia|].
      exists b. rewrite Eb. cbn. auto.
    - apply rbind_ok in E as [[x c1] [E1 E]]. apply ok_inj in E. injection E as <- <- <-.
      exists []. rewrite app_nil_r. split; [reflexivity|]. cbn [mirror verifier_step app].
      unfold sample_bits in *.
      destruct (sample_same c cv 4 I Iv V) as (o & a & b' & Ea & Eb & Ia & Ib & Vab).
      rewrite Ea in E1. cbn [rbind] in E1. apply ok_inj in E1. injection E1 as <- <-. split; [exact Ia|].
      exists b'. rewrite Eb. cbn [rbind]. auto.
    - destruct debug.
      + apply rbind_ok in E as [c1 [E2 E]]. apply ok_inj in E. injection E as <- <- <-.
        exists m. split; [reflexivity|].
        destruct (pieces_ok ap Ha m (length m) (length tape) c (le_n _) I) as (x & Ex & Ix & Vx).
        rewrite Ex in E2. apply ok_inj in E2. subst x. split; [exact Ix|].
        destruct (pieces_ok av Hv m (length m) (length (m ++ rest)) cv (le_n _) Iv) as (cv' & Ev & Ixv & Vxv).
        exists cv'. cbn [mirror verifier_step]. rewrite take_app. cbn [expect rbind]. rewrite Ev. cbn [rbind].
        destruct (list_eq_dec N.eq_dec m m); [|congruence].
        split; [reflexivity|]. split; [exact Ixv|]. rewrite Vx, Vxv, V. reflexivity.
      + apply ok_inj in E. injection E as <- <- <-. exists []. rewrite app_nil_r. split; [reflexivity|].
        split; [exact I|]. exists cv. cbn. auto.
  Qed.

  Lemma run_sim debug ap av ops : (forall p, 0 < ap p) -> (forall p, 0 < av p) -> Forall (op_ok utf8) ops ->
    forall tape c items tape' c' cv extra, cinv c -> cinv cv -> view c = view cv ->
    prover_run hash osz bsz room debug ap (tape, c) ops = Ok (items, (tape', c')) ->
    exists bs, tape' = tape ++ bs /\ cinv c' /\ exists cv',
      verifier_run hash osz bsz utf8 room debug av (bs ++ extra, cv) (map mirror ops) = Ok (items, (extra, cv')) /\
      cinv cv' /\ view c' = view cv'.
  Proof.
    intros Ha Hv. induction 1 as [|o ops HO HR IH]; intros tape c items tape' c' cv extra I Iv V E.
    - cbn in E. apply ok_inj in E. injection E as <- <- <-. exists []. rewrite app_nil_r.
      split; [reflexivity|]. split; [exact I|]. exists cv. cbn. auto.
    - cbn [prover_run] in E. apply rbind_ok in E as [[i1 [t1 c1]] [E1 E]].
      apply rbind_ok in E as [[i2 [t2 c2]] [E2 E]]. apply ok_inj in E. injection E as <- <- <-.
      assert (P : exists bs, t1 = tape ++ bs /\ cinv c1 /\ exists cv',
        forall rest, verifier_step hash osz bsz utf8 room debug av (bs ++ rest, cv) (mirror o) = Ok (i1, (rest, cv')) ->
          True).
      { destruct (step_sim debug ap av o tape c i1 t1 c1 cv [] Ha Hv HO I Iv V E1) as (bs & T & I1 & cv' & Es & _).
        exists bs. split; [exact T|]. split; [exact I1|]. now exists cv'. }
      destruct P as (bs & -> & I1 & _).
      (* the bytes written by the step do not depend on what follows *)
      destruct (step_sim debug ap av o tape c i1 (tape ++ bs) c1 cv [] Ha Hv HO I Iv V E1) as (bs' & T & _ & _).
      apply app_inv_head in T. subst bs'.
      (* the rest of the run, from any related verifier state *)
      assert (W : exists cv1, view c1 = view cv1 /\ cinv cv1).
      { now exists c1. }
      destruct W as (cw & Vw & Iw).
      destruct (IH (tape ++ bs) c1 i2 t2 c2 cw extra I1 Iw Vw E2) as (bs2 & -> & I2 & _).
      destruct (step_sim debug ap av o tape c i1 (tape ++ bs) c1 cv (bs2 ++ extra) Ha Hv HO I Iv V E1)
        as (bs' & T & _ & cv1 & Es & Iv1 & V1).
      apply app_inv_head in T. subst bs'.
      destruct (IH (tape ++ bs) c1 i2 (((tape ++ bs) ++ bs2)) c2 cv1 extra I1 Iv1 V1 E2)
        as (bs2' & T & _ & cv2 & Er & Iv2 & V2).
      apply app_inv_head in T. subst bs2'.
      exists (bs ++ bs2). rewrite app_assoc. split; [reflexivity|]. split; [exact I2|].
      exists cv2. cbn [map verifier_run]. rewrite <- app_assoc, Es. cbn [rbind]. rewrite Er. cbn [rbind]. auto.
  Qed.

  (** C33: a verifier that mirrors the prover's operations on the prover's tape receives exactly the
      values the prover sent and draws the same challenges, whatever the two sides' buffering; it
      stops where the prover stopped, so it accepts the end of the tape iff nothing was appended. *)
  Theorem transcript_agreement debug ap av ops items st extra :
    (forall p, 0 < ap p) -> (forall p, 0 < av p) -> Forall (op_ok utf8) ops ->
    prover_run hash osz bsz room debug ap (prover_new hash) ops = Ok (items, st) ->
    exists stv,
      verifier_run hash osz bsz utf8 room debug av
        (verifier_new hash (prover_finalize st ++ extra)) (map mirror ops) = Ok (items, stv) /\
      fst stv = extra /\
      verifier_finalize stv = match extra with [] => Ok tt | _ => Err end.
  Proof.
    intros Ha Hv OK E. destruct st as [tape c].
    pose proof (default_inv hash osz bsz hash_len osz_pos bsz_pos) as D.
    destruct (run_sim debug ap av ops Ha Hv OK [] (challenger_default hash) items tape c
      (challenger_default hash) extra D D eq_refl E) as (bs & -> & _ & cv & Er & _).
    exists (extra, cv). cbn [prover_finalize fst]. auto.
  Qed.

  (** C33: on any tape at all, the verifier without debug messages either reports an error or draws the
      challenges of the sponge run on the observed bytes: the statement and the messages it
      consumed.  Bytes read as advice have no influence on them. *)
  Theorem verifier_challenges av ops tape items st :
    (forall p, 0 < av p) -> 
    verifier_run hash osz bsz utf8 room false av (verifier_new hash tape) ops = Ok (items, st) ->
    filter is_challenge items =
      challenges ops (fst (sponge_run hash osz (sponge_init hash) (verifier_events utf8 room tape ops))).
  Proof.
    intros Ha. unfold verifier_new.
    pose proof (default_inv hash osz bsz hash_len osz_pos bsz_pos) as D.
    change (sponge_init hash) with (view (challenger_default hash)). revert D.
    generalize (challenger_default hash). revert tape items st.
    assert (SB : forall c n, exists s', sponge_sample hash (view c) n = (fst (sponge_sample hash (view c) n), s')).
    { intros. eexists. apply surjective_pairing. }
    assert (MK : forall b x, N.land (if (Nat.min b 32 <? 32)%nat then 2 ^ N.of_nat (Nat.min b 32) - 1 else 2 ^ 32 - 1) x
       = (x mod 2 ^ N.of_nat (Nat.min b 32))%N).
    { intros. replace (if (Nat.min b 32 <? 32)%nat then 2 ^ N.of_nat (Nat.min b 32) - 1 else 2 ^ 32 - 1)%N
        with (N.ones (N.of_nat (Nat.min b 32))).
      - rewrite N.land_comm. apply N.land_ones.
      - rewrite N.ones_equiv, N.pred_sub. destruct (Nat.ltb_spec (Nat.min b 32) 32); [reflexivity|].
        now replace (Nat.min b 32) with 32 by lia. }
    induction ops as [|o ops IH]; intros tape items st c D E; cbn [verifier_run] in E.
    - apply ok_inj in E. injection E as <- <-. reflexivity.
    - apply rbind_ok in E as [[i1 [t1 c1]] [E1 E]]. apply rbind_ok in E as [[i2 st2] [E2 E]].
      apply ok_inj in E. injection E as <- <-. rewrite filter_app.
      destruct o as [t|t|t v|n|b|m]; cbn [verifier_step verifier_events challenges] in *.
      + apply rbind_ok in E1 as [[v rest] [E1 E]]. apply rbind_ok in E as [c2 [E3 E]].
        apply ok_inj in E. injection E as <- <- <-. rewrite E1.
        destruct (pieces_ok av Ha (consumed tape rest) (length (consumed tape rest)) (length tape) c (le_n _) D)
          as (x & Ex & Ix & Vx).
        rewrite Ex in E3. apply ok_inj in E3. subst x. cbn [filter is_challenge app].
        rewrite (IH rest i2 st2 c2 Ix E2). f_equal. rewrite Vx.
        destruct (consumed tape rest); reflexivity.
      + apply rbind_ok in E1 as [[v rest] [E1 E]]. apply ok_inj in E. injection E as <- <- <-. rewrite E1.
        cbn [filter is_challenge app]. now apply IH with st2.
      + apply rbind_ok in E1 as [bs [E1 E]]. apply rbind_ok in E as [c2 [E3 E]].
        apply ok_inj in E. injection E as <- <- <-.
        destruct (ser t v room) as [b'| |] eqn:Es; try discriminate. apply ok_inj in E1. subst b'.
        destruct (observe_ok osz bsz osz_pos bsz_pos c bs D) as (x & Ex & Ix & Vx).
        rewrite Ex in E3. cbn in E3. apply ok_inj in E3. subst x. cbn [filter app sponge_run].
        rewrite (IH tape i2 st2 c2 Ix E2). now rewrite Vx.
      + apply rbind_ok in E1 as [[bs c2] [E1 E]]. apply ok_inj in E. injection E as <- <- <-.
        unfold t_sample in E1.
        destruct (sample_ok hash osz bsz hash_len osz_pos bsz_pos c n D) as (x & Ex & Ix & Vx).
        rewrite Ex in E1. cbn [of_opt] in E1. apply ok_inj in E1. injection E1 as <- <-.
        cbn [filter is_challenge app sponge_run].
        destruct (sponge_sample hash (view c) n) as [out s1]. cbn [fst snd] in *. subst s1.
        rewrite (IH tape i2 st2 x Ix E2). destruct (sponge_run hash osz (view x) _). reflexivity.
      + apply rbind_ok in E1 as [[bs c2] [E1 E]]. apply ok_inj in E. injection E as <- <- <-.
        unfold sample_bits, t_sample in E1.
        destruct (sample_ok hash osz bsz hash_len osz_pos bsz_pos c 4 D) as (x & Ex & Ix & Vx).
        rewrite Ex in E1. cbn [of_opt rbind] in E1. apply ok_inj in E1. injection E1 as <- <-.
        rewrite MK.
        cbn [filter is_challenge app sponge_run].
        destruct (sponge_sample hash (view c) 4) as [out s1]. cbn [fst snd] in *. subst s1.
        rewrite (IH tape i2 st2 x Ix E2). destruct (sponge_run hash osz (view x) _). reflexivity.
      + apply ok_inj in E1. injection E1 as <- <- <-. cbn [filter app]. now apply IH with st2.
  Qed.

  (** A verifier without debug messages never panics on any tape, however malformed, as long as the
      statement it observes can be serialized. *)
  Theorem verifier_no_panic av ops tape :
    (forall p, 0 < av p) ->
    Forall (fun o => match o with VObserve t v => exists b, ser t v room = Ok b | _ => True end) ops ->
    verifier_run hash osz bsz utf8 room false av (verifier_new hash tape) ops <> Panic.
  Proof.
    intros Ha. unfold verifier_new.
    pose proof (default_inv hash osz bsz hash_len osz_pos bsz_pos) as D. revert D.
    generalize (challenger_default hash). revert tape.
    induction ops as [|o ops IH]; intros tape c D H; cbn [verifier_run]; [discriminate|].
    inversion H as [|? ? H1 H2]; subst.
    destruct o as [t|t|t v|n|b|m]; cbn [verifier_step].
    - pose proof (deserialize_total utf8 t tape) as [P _].
      destruct (de utf8 t tape) as [[v rest]| |]; cbn [rbind]; try congruence.
      destruct (pieces_ok av Ha (consumed tape rest) (length (consumed tape rest)) (length tape) c (le_n _) D)
        as (x & -> & Ix & _). cbn [rbind].
      specialize (IH rest x Ix H2). destruct (verifier_run _ _ _ _ _ _ _ _ ops) as [[] | |]; cbn; congruence.
    - pose proof (deserialize_total utf8 t tape) as [P _].
      destruct (de utf8 t tape) as [[v rest]| |]; cbn [rbind]; try congruence.
      specialize (IH rest c D H2). destruct (verifier_run _ _ _ _ _ _ _ _ ops) as [[] | |]; cbn; congruence.
    - destruct H1 as [bs Hb]. rewrite Hb. cbn [expect rbind].
      destruct (observe_ok osz bsz osz_pos bsz_pos c bs D) as (x & -> & Ix & _). cbn [of_opt rbind].
      specialize (IH tape x Ix H2). destruct (verifier_run _ _ _ _ _ _ _ _ ops) as [[] | |]; cbn; congruence.
    - unfold t_sample. destruct (sample_ok hash osz bsz hash_len osz_pos bsz_pos c n D) as (x & -> & Ix & _).
      cbn [of_opt rbind].
      specialize (IH tape x Ix H2). destruct (verifier_run _ _ _ _ _ _ _ _ ops) as [[] | |]; cbn; congruence.
    - unfold sample_bits, t_sample.
      destruct (sample_ok hash osz bsz hash_len osz_pos bsz_pos c 4 D) as (x & -> & Ix & _).
      cbn [of_opt rbind].
      specialize (IH tape x Ix H2). destruct (verifier_run _ _ _ _ _ _ _ _ ops) as [[] | |]; cbn; congruence.
    - cbn [rbind].
      specialize (IH tape c D H2). destruct (verifier_run _ _ _ _ _ _ _ _ ops) as [[] | |]; cbn; congruence.
  Qed.

  (** With debug assertions on, a debug marker is consumed only if the tape continues with exactly it. *)
  Theorem read_debug_checks av st msg items st' :
    verifier_run hash osz bsz utf8 room true av st [VDebug msg] = Ok (items, st') ->
    items = [] /\ fst st = msg ++ fst st'.
  Proof.
    destruct st as [tape c]. cbn [verifier_run verifier_step]. intros E.
    apply rbind_ok in E as [[i1 st1] [E1 E]]. apply rbind_ok in E1 as [[bs rest] [T E1]].
    destruct (take (length msg) tape) as [[bs' rest']| |] eqn:ET; try discriminate. cbn [expect] in T. apply ok_inj in T. injection T as -> ->.
    apply take_ok in ET.
    apply rbind_ok in E1 as [c1 [_ E1]]. destruct (list_eq_dec N.eq_dec msg bs) as [->|]; [|discriminate].
    apply ok_inj in E1. injection E1 as <- <-. cbn [rbind] in E. apply ok_inj in E. injection E as <- <-.
    split; [reflexivity|]. cbn [fst]. apply ET.
  Qed.
End Transcript.

(** A debug message is an assertion: a hostile proof makes a verifier built with debug assertions
    panic instead of returning an error. *)
Theorem read_debug_panics_refuted : exists hash osz bsz utf8 room av tape msg,
  (forall x, length (hash x) = osz) /\ 0 < osz /\ 0 < bsz /\
  verifier_run hash osz bsz utf8 room true av (verifier_new hash tape) [VDebug msg] = Panic.
Proof.
  exists toy_hash, 2, 3, (fun _ => true), 1000, (fun _ => 7), [1]%N, [65; 66]%N.
  split; [intros; apply le_bytes_length|]. repeat split; auto.
Qed.

Definition ex_ops : list op :=
  [OObserve (TUInt 2) 5%N; OMsg (TArr 3) [1; 2; 3]%N; OSample 3; OAdvice (TVec (TUInt 1)) [9; 8]%N;
   OBits 5; ODebug [65]%N; OMsg TUnit tt; OSample 2].
Example transcript_ex :
  Forall (op_ok (fun _ => true)) ex_ops /\
  exists items st, prover_run toy_hash 2 3 1000 true (fun _ => 2) (prover_new toy_hash) ex_ops = Ok (items, st) /\
    fst st = [1; 2; 3; 2; 0; 0; 0; 9; 8; 65]%N /\
    exists stv, verifier_run toy_hash 2 3 (fun _ => true) 1000 true (fun _ => 64)
      (verifier_new toy_hash (fst st ++ [7]%N)) (map mirror ex_ops) = Ok (items, stv) /\
    length (filter is_challenge items) = 3 /\ verifier_finalize stv = Err.
Proof.
  split; [repeat constructor; cbn; lia|]. eexists _, _. split; [vm_compute; reflexivity|].
  split; [reflexivity|]. eexists. split; [vm_compute; reflexivity|]. split; reflexivity.
Qed.
