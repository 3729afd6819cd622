(** C59: the challenges bind the whole history of the interaction. *)
Require Import Coq.NArith.NArith Coq.Arith.Arith Coq.Lists.List Coq.Bool.Bool Lia.
Require Import Verif.Base.Sums Verif.Base.Lists Verif.Transcript.SerModel Verif.Transcript.SerProofs.
Require Import Verif.Transcript.ChallengerModel Verif.Transcript.ChallengerSpec Verif.Transcript.ChallengerProps.
Import ListNotations.
Local Close Scope N_scope. Local Open Scope nat_scope.

Section Binding.
  Variable hash : list byte -> list byte.
  Variable osz bsz : nat.
  Hypothesis hash_len : forall x, length (hash x) = osz.
  Hypothesis osz_pos : 0 < osz.
  Hypothesis osz_u64 : (N.of_nat osz < 2 ^ 64)%N.
  Hypothesis bsz_pos : 0 < bsz.

  Notation sbytes := (sponge_bytes hash).
  Notation srun := (sponge_run hash osz).
  Notation init := (sponge_init hash).
  Notation inputs := (run_inputs hash osz).
  Notation binputs := (bytes_inputs hash).

  Definition st (h : list event) : sponge := snd (srun init h).
  Definition iterh (k : nat) (p : list byte) : list byte := Nat.iter k hash p.

  Lemma srun_app_snd s a b : snd (srun s (a ++ b)) = snd (srun (snd (srun s a)) b).
  Proof.
    revert s. induction a as [|[bs|n] a IH]; intros s; cbn [app sponge_run]; auto.
    destruct (sponge_sample hash s n) as [o s1]. specialize (IH s1).
    destruct (srun s1 (a ++ b)), (srun s1 a). exact IH.
  Qed.

  Lemma inputs_app s a b : inputs s (a ++ b) = inputs s a ++ inputs (snd (srun s a)) b.
  Proof.
    revert s. induction a as [|[bs|n] a IH]; intros s; cbn [app run_inputs sponge_run]; auto.
    rewrite IH, app_assoc. destruct (sponge_sample hash s n) as [o s1]. cbn [snd].
    destruct (srun s1 a). reflexivity.
  Qed.

  Lemma binputs_app a b s : binputs (a + b) s = binputs a s ++ binputs b (snd (sbytes a s)).
  Proof.
    revert s. induction a; intros s; cbn [Nat.add bytes_inputs sponge_bytes app]; auto.
    rewrite IHa, app_assoc. destruct (sponge_byte hash s) as [x s1]. cbn [snd].
    destruct (sbytes a s1). reflexivity.
  Qed.

  Lemma binputs_unread n p u : n <= length u -> binputs n (Sponge false p u) = [].
  Proof.
    revert u. induction n; intros [|x u] H; cbn in *; auto; try lia. apply IHn. lia.
  Qed.

  Lemma iterh_len k p : length (iterh (S k) p) = osz.
  Proof. apply hash_len. Qed.

  (** Sampling n > 0 bytes when nothing is unread: k blocks are produced and hashed in turn. *)
  Lemma sample_blocks n p : 0 < n -> exists k, 0 < k /\ (k - 1) * osz < n <= k * osz /\
    absorbed (snd (sbytes n (Sponge false p []))) = iterh k p /\
    length (unread (snd (sbytes n (Sponge false p [])))) = k * osz - n /\
    absorbing (snd (sbytes n (Sponge false p []))) = false /\
    forall i, i < k -> In (iterh i p) (binputs n (Sponge false p [])).
  Proof.
    revert p. induction n as [n IH] using lt_wf_ind. intros p Hn.
    destruct (le_lt_dec n osz) as [H|H].
    - exists 1. split; [lia|]. split; [lia|].
      destruct n as [|n]; [lia|]. rewrite (sponge_fill hash osz hash_len osz_pos).
      rewrite (sponge_bytes_unread hash) by (rewrite hash_len; lia). cbn [snd absorbed unread absorbing].
      split; [reflexivity|]. split; [rewrite skipn_length, hash_len; lia|]. split; [reflexivity|].
      intros i Hi. replace i with 0 by lia. left. reflexivity.
    - assert (E1 : sbytes osz (Sponge false p []) = (hash p, Sponge false (hash p) [])).
      { destruct osz as [|o] eqn:Eo; [lia|]. rewrite <- Eo in *.
        replace (sbytes osz (Sponge false p [])) with (sbytes osz (Sponge false (hash p) (hash p))).
        - rewrite (sponge_bytes_unread hash) by (rewrite hash_len; lia).
          rewrite <- (hash_len p), firstn_all, skipn_all. reflexivity.
        - rewrite Eo. symmetry. apply (sponge_fill hash osz hash_len). lia. }
      assert (E2 : In p (binputs osz (Sponge false p []))).
      { destruct osz as [|o]; [lia|]. left. reflexivity. }
      destruct (IH (n - osz)) with (p := hash p) as (k & Hk & Hb & A & U & B & I); [lia|lia|].
      exists (S k). split; [lia|]. split; [split; nia|].
      replace n with (osz + (n - osz)) by lia.
      rewrite (sponge_bytes_app hash), binputs_app, E1. cbn [fst snd].
      assert (It : forall j, iterh j (hash p) = iterh (S j) p).
      { intros j. induction j; [reflexivity|]. change (hash (iterh j (hash p)) = hash (iterh (S j) p)). now rewrite IHj. }
      split; [rewrite A; apply It|]. split; [lia|]. split; [exact B|].
      intros i Hi. apply in_or_app. destruct i as [|i]; [left; exact E2|right].
      rewrite <- It. apply I. lia.
  Qed.

  (** What was absorbed before the last sampling of a history. *)
  Definition pend (f : list event) : list byte := match f with [] => [] | _ => absorbed (st f) end.

  Lemma pend_snoc g e : pend (g ++ [e]) = absorbed (st (g ++ [e])).
  Proof. unfold pend. destruct (g ++ [e]) eqn:E; [destruct g; discriminate|reflexivity]. Qed.

  Definition ends_obs (f : list event) : Prop := exists g b, f = g ++ [EObserve b].

  Lemma alternating_app p a e b : alternating p (a ++ e :: b) -> alternating p a /\
    match e with
    | EObserve _ => (match a with [] => p <> Some true | _ => ~ ends_obs a end)
    | ESample n => 0 < n /\ (match a with [] => p <> Some false | _ => ends_obs a end)
    end /\ alternating (Some (match e with EObserve _ => true | _ => false end)) b.
  Proof.
    revert p. induction a as [|x a IH]; intros p H.
    - cbn [app] in H. destruct e; cbn in *; tauto.
    - cbn [app alternating] in H.
      assert (Hx : alternating (Some (match x with EObserve _ => true | _ => false end)) (a ++ e :: b)).
      { destruct x; tauto. }
      destruct (IH _ Hx) as (H1 & H2 & H3). split; [destruct x; cbn; tauto|]. split; [|exact H3].
      destruct a as [|y a].
      + destruct e as [bs|n].
        * destruct x; [congruence|]. intros (g & b' & E). destruct g; [discriminate|].
          destruct g; discriminate.
        * split; [tauto|]. destruct x; [|tauto]. now exists [], bytes.
      + destruct e as [bs|n].
        * intros (g & b' & E). apply H2. destruct g as [|z g]; [discriminate|].
          injection E as -> E. now exists g, b'.
        * destruct H2 as [H2 (g & b' & E)]. split; [exact H2|]. exists (x :: g), b'. now rewrite E.
  Qed.

  Lemma st_snoc f e : st (f ++ [e]) = snd (srun (st f) [e]).
  Proof. apply srun_app_snd. Qed.

  Lemma st_obs f b : st (f ++ [EObserve b]) = sponge_observe osz (st f) b.
  Proof. now rewrite st_snoc. Qed.

  Lemma st_sample f n : st (f ++ [ESample n]) = snd (sponge_sample hash (st f) n).
  Proof. rewrite st_snoc. cbn [sponge_run]. now destruct (sponge_sample hash (st f) n). Qed.

  (** The state after a history that ends with a sampling. *)
  Lemma st_after_sample f n : 0 < n -> f = [] \/ ends_obs f -> exists k, 0 < k /\
    (k - 1) * osz < n <= k * osz /\
    absorbed (st (f ++ [ESample n])) = iterh k (pend f) /\
    length (unread (st (f ++ [ESample n]))) = k * osz - n /\
    absorbing (st (f ++ [ESample n])) = false /\
    forall i, i < k -> In (iterh i (pend f)) (hashed_inputs hash osz (f ++ [ESample n])).
  Proof.
    intros Hn Hf. destruct (sample_blocks n (pend f) Hn) as (k & Hk & Hb & A & U & B & I).
    exists k. split; [exact Hk|]. split; [exact Hb|].
    assert (E : st (f ++ [ESample n]) = snd (sbytes n (Sponge false (pend f) []))).
    { rewrite st_sample. unfold sponge_sample. destruct Hf as [->|(g & b & ->)].
      - cbn [pend]. destruct n as [|n]; [lia|]. rewrite (sponge_fill hash osz hash_len osz_pos). reflexivity.
      - rewrite pend_snoc, st_obs. reflexivity. }
    rewrite E. repeat (split; [assumption|]). intros i Hi. unfold hashed_inputs. rewrite inputs_app.
    cbn [run_inputs]. rewrite app_nil_r.
    destruct Hf as [->|(g & b & ->)].
    - cbn [app run_inputs sponge_run snd]. cbn [pend] in *. specialize (I i Hi).
      destruct i as [|i]; [left; reflexivity|right].
      destruct n as [|n]; [lia|]. cbn [bytes_inputs sponge_byte unread absorbed app snd] in I.
      destruct I as [I|I].
      + exfalso. assert (L : length (iterh (S i) []) = 0) by now rewrite <- I.
        rewrite iterh_len in L. lia.
      + cbn [bytes_inputs sponge_byte unread absorbed app snd]. unfold sponge_init.
        cbn [unread absorbed]. pose proof (hash_len []) as L. destruct (hash []) as [|x d]; [cbn in L; lia|].
        exact I.
    - right. apply in_or_app. right. specialize (I i Hi).
      rewrite pend_snoc in *.
      change (snd (srun init (g ++ [EObserve b]))) with (st (g ++ [EObserve b])).
      rewrite st_obs in *. exact I.
  Qed.

  Lemma hashed_inputs_incl f g x : In x (hashed_inputs hash osz f) -> In x (hashed_inputs hash osz (f ++ g)).
  Proof.
    unfold hashed_inputs. intros [H|H]; [left; exact H|right]. rewrite inputs_app. apply in_or_app. auto.
  Qed.

  Lemma collision_incl f1 g1 f2 g2 :
    collision_between hash (hashed_inputs hash osz f1) (hashed_inputs hash osz f2) ->
    collision_between hash (hashed_inputs hash osz (f1 ++ g1)) (hashed_inputs hash osz (f2 ++ g2)).
  Proof.
    intros (x & y & Hx & Hy & H). exists x, y. split; [now apply hashed_inputs_incl|].
    split; [now apply hashed_inputs_incl|exact H].
  Qed.

  Lemma bytes_eq_dec (x y : list byte) : {x = y} + {x <> y}.
  Proof. apply list_eq_dec, N.eq_dec. Qed.

  (** Equal ends of two chains of hashes. *)
  Lemma chains l1 l2 p1 p2 : length p1 <> osz -> length p2 <> osz -> forall k1 k2, 0 < k1 -> 0 < k2 ->
    (forall i, i < k1 -> In (iterh i p1) l1) -> (forall i, i < k2 -> In (iterh i p2) l2) ->
    iterh k1 p1 = iterh k2 p2 -> (k1 = k2 /\ p1 = p2) \/ collision_between hash l1 l2.
  Proof.
    intros L1 L2. induction k1 as [|k1 IH]; intros k2 H1 H2 I1 I2 E; [lia|].
    destruct k2 as [|k2]; [lia|]. change (hash (iterh k1 p1) = hash (iterh k2 p2)) in E.
    destruct (bytes_eq_dec (iterh k1 p1) (iterh k2 p2)) as [Q|Q].
    - destruct k1 as [|k1], k2 as [|k2].
      + left. auto.
      + exfalso. apply L1. change (iterh 0 p1) with p1 in Q. rewrite Q. apply iterh_len.
      + exfalso. apply L2. change (iterh 0 p2) with p2 in Q. rewrite <- Q. apply iterh_len.
      + destruct (IH (S k2)) as [[E1 E2]|C]; [lia|lia|intros; apply I1; lia|intros; apply I2; lia|exact Q| |now right].
        left. split; [lia|exact E2].
    - right. exists (iterh k1 p1), (iterh k2 p2). split; [apply I1; lia|]. split; [apply I2; lia|]. auto.
  Qed.

  (** Before an observation, an alternating history is empty or ends with a sampling. *)
  Lemma before_obs g b : alternating None (g ++ [EObserve b]) ->
    g = [] \/ exists f n, g = f ++ [ESample n] /\ 0 < n /\ (f = [] \/ ends_obs f) /\ alternating None f.
  Proof.
    intros H. apply alternating_app in H as (H1 & H2 & _).
    destruct g as [|x g] using rev_ind; [now left|right].
    destruct x as [bs|n].
    - exfalso. destruct (g ++ [EObserve bs]) eqn:E; [destruct g; discriminate|]. apply H2.
      exists g, bs. now rewrite E.
    - apply alternating_app in H1 as (H1 & (Hn & H3) & _). exists g, n. repeat split; auto.
      destruct g; [now left|now right].
  Qed.

  Lemma absorbed_before g : (g = [] \/ exists f n, g = f ++ [ESample n] /\ 0 < n /\ (f = [] \/ ends_obs f)) ->
    length (absorbed (st g)) = osz /\ absorbing (st g) = false /\ length (unread (st g)) <= osz /\
    (length (unread (st g)) = osz <-> g = []).
  Proof.
    intros [->|(f & n & -> & Hn & Hf)].
    - cbn. rewrite hash_len. repeat split; auto.
    - destruct (st_after_sample f n Hn Hf) as (k & Hk & Hb & A & U & B & _).
      rewrite A, U, B. destruct k as [|k]; [lia|]. rewrite iterh_len.
      repeat split; auto; try nia.
      intros Q. destruct f; discriminate.
  Qed.

  Lemma le8_inj x y : (x < 2 ^ 64)%N -> (y < 2 ^ 64)%N -> le_bytes 8 x = le_bytes 8 y -> x = y.
  Proof.
    intros Hx Hy E. rewrite <- (of_le_bytes 8 x), <- (of_le_bytes 8 y); [now rewrite E| |]; assumption.
  Qed.

  Lemma app_split {A} (a b c d : list A) : length a = length c -> a ++ b = c ++ d -> a = c /\ b = d.
  Proof.
    revert c. induction a; intros [|x c] L E; cbn in *; try lia; auto.
    injection E as -> E. destruct (IHa c) as [-> ->]; auto.
  Qed.

  Lemma absorbed_obs g b : absorbing (st g) = false ->
    absorbed (st (g ++ [EObserve b])) =
      absorbed (st g) ++ le_bytes 8 (N.of_nat (osz - length (unread (st g)))) ++ b.
  Proof. intros H. rewrite st_obs. unfold sponge_observe. cbn [absorbed]. now rewrite H, <- app_assoc. Qed.

  Lemma pend_len f : alternating None f -> f = [] \/ ends_obs f -> length (pend f) <> osz /\
    (pend f = [] <-> f = []).
  Proof.
    intros HA [->|(g & b & ->)].
    - cbn. split; [lia|tauto].
    - destruct (absorbed_before g) as (L & B & _).
      { destruct (before_obs g b HA) as [E|(f & n & E1 & E2 & E3 & _)]; [now left|right; eauto]. }
      assert (P : length (pend (g ++ [EObserve b])) = osz + (8 + length b)).
      { rewrite pend_snoc, absorbed_obs by assumption. now rewrite !app_length, L, le_bytes_length. }
      rewrite P. split; [lia|]. split; intros E; [rewrite E in P; cbn in P; lia|destruct g; discriminate].
  Qed.

  Lemma binding_core : forall N h1 h2, length h1 <= N -> alternating None h1 -> alternating None h2 ->
    ends_obs h1 -> ends_obs h2 -> absorbed (st h1) = absorbed (st h2) ->
    h1 = h2 \/ collision_between hash (hashed_inputs hash osz h1) (hashed_inputs hash osz h2).
  Proof.
    induction N as [|N IH]; intros h1 h2 HN A1 A2 (g1 & b1 & ->) (g2 & b2 & ->) E.
    { rewrite app_length in HN. cbn in HN. lia. }
    pose proof (before_obs g1 b1 A1) as B1. pose proof (before_obs g2 b2 A2) as B2.
    assert (C1 : g1 = [] \/ exists f n, g1 = f ++ [ESample n] /\ 0 < n /\ (f = [] \/ ends_obs f)).
    { destruct B1 as [?|(f & n & ? & ? & ? & ?)]; [now left|right; eauto]. }
    assert (C2 : g2 = [] \/ exists f n, g2 = f ++ [ESample n] /\ 0 < n /\ (f = [] \/ ends_obs f)).
    { destruct B2 as [?|(f & n & ? & ? & ? & ?)]; [now left|right; eauto]. }
    pose proof (absorbed_before g1 C1) as (L1 & D1 & U1 & Z1).
    pose proof (absorbed_before g2 C2) as (L2 & D2 & U2 & Z2).
    rewrite !absorbed_obs in E by assumption.
    apply app_split in E as [Ea E]; [|congruence].
    apply app_split in E as [Ep E]; [|now rewrite !le_bytes_length]. subst b2.
    apply le8_inj in Ep; [|lia|lia].
    assert (Eu : length (unread (st g1)) = length (unread (st g2))) by lia.
    destruct B1 as [->|(f1 & n1 & -> & Hn1 & Hf1 & Af1)], B2 as [->|(f2 & n2 & -> & Hn2 & Hf2 & Af2)].
    - now left.
    - exfalso. assert (Q : f2 ++ [ESample n2] = []) by (apply Z2; rewrite <- Eu; now apply Z1). destruct f2; discriminate.
    - exfalso. assert (Q : f1 ++ [ESample n1] = []) by (apply Z1; rewrite Eu; now apply Z2). destruct f1; discriminate.
    - destruct (st_after_sample f1 n1 Hn1 Hf1) as (k1 & Hk1 & Hb1 & Ab1 & Un1 & _ & I1).
      destruct (st_after_sample f2 n2 Hn2 Hf2) as (k2 & Hk2 & Hb2 & Ab2 & Un2 & _ & I2).
      rewrite Ab1, Ab2 in Ea. rewrite Un1, Un2 in Eu.
      destruct (pend_len f1 Af1 Hf1) as [P1 N1]. destruct (pend_len f2 Af2 Hf2) as [P2 N2].
      destruct (chains _ _ _ _ P1 P2 k1 k2 Hk1 Hk2 I1 I2 Ea) as [[-> Ep']|C].
      + assert (n1 = n2) by nia. subst n2.
        assert (F : f1 = f2 \/ collision_between hash (hashed_inputs hash osz f1) (hashed_inputs hash osz f2)).
        { destruct Hf1 as [->|Hf1], Hf2 as [->|Hf2].
          - now left.
          - exfalso. cbn [pend] in Ep'. symmetry in Ep'. apply N2 in Ep'. subst.
            destruct Hf2 as (g & b & Q). destruct g; discriminate.
          - exfalso. cbn [pend] in Ep'. apply N1 in Ep'. subst.
            destruct Hf1 as (g & b & Q). destruct g; discriminate.
          - apply IH; auto.
            + rewrite !app_length in HN. cbn in HN. lia.
            + destruct Hf1 as (x & y & ->), Hf2 as (z & w & ->). rewrite !pend_snoc in Ep'. exact Ep'. }
        destruct F as [->|C]; [now left|right]. rewrite <- !app_assoc. now apply collision_incl.
      + right. now apply collision_incl.
  Qed.

  (** C59: if the digests that two interactions sample next agree, then the interactions observed the
      same bytes and sampled the same amounts at the same points, or two distinct strings hashed in
      them collide. *)
  Theorem challenger_binding h1 h2 b1 b2 outs1 outs2 out c1 c2 :
    alternating None (h1 ++ [EObserve b1]) -> alternating None (h2 ++ [EObserve b2]) ->
    run hash osz bsz (challenger_default hash) (h1 ++ [EObserve b1; ESample osz]) =
      Some (outs1 ++ [out], c1) ->
    run hash osz bsz (challenger_default hash) (h2 ++ [EObserve b2; ESample osz]) =
      Some (outs2 ++ [out], c2) ->
    (h1 = h2 /\ b1 = b2) \/
    collision_between hash (hashed_inputs hash osz (h1 ++ [EObserve b1; ESample osz]))
                           (hashed_inputs hash osz (h2 ++ [EObserve b2; ESample osz])).
  Proof.
    intros A1 A2 E1 E2.
    assert (L : forall h b outs c, 
      run hash osz bsz (challenger_default hash) (h ++ [EObserve b; ESample osz]) = Some (outs ++ [out], c) ->
      out = hash (absorbed (st (h ++ [EObserve b])))).
    { clear - hash_len osz_pos bsz_pos. intros h b outs c E.
      destruct (challenger_is_sponge hash osz bsz hash_len osz_pos bsz_pos (h ++ [EObserve b; ESample osz]))
        as [c' E'].
      rewrite E in E'. apply some_inj' in E'. injection E' as E' _.
      replace (h ++ [EObserve b; ESample osz]) with ((h ++ [EObserve b]) ++ [ESample osz]) in E'
        by now rewrite <- app_assoc.
      assert (G : forall s l, fst (srun s (l ++ [ESample osz])) =
        fst (srun s l) ++ [fst (sponge_sample hash (snd (srun s l)) osz)]).
      { clear. intros s l. revert s. induction l as [|[bs|n] l IH]; intros s; cbn [app sponge_run].
        - cbn [fst snd app]. destruct (sponge_sample hash s osz). reflexivity.
        - apply IH.
        - destruct (sponge_sample hash s n) as [o s1]. specialize (IH s1).
          destruct (srun s1 (l ++ [ESample osz])), (srun s1 l). cbn in *. now rewrite IH. }
      rewrite G in E'. apply app_inj_tail in E' as [_ ->].
      change (snd (srun init (h ++ [EObserve b]))) with (st (h ++ [EObserve b])).
      rewrite st_obs. unfold sponge_sample, sponge_observe. cbn [absorbed unread].
      set (p := _ ++ b). destruct osz as [|o] eqn:Eo; [lia|]. rewrite <- Eo in *.
      replace (sbytes osz (Sponge false p [])) with (sbytes osz (Sponge false (hash p) (hash p))).
      - rewrite (sponge_bytes_unread hash) by (rewrite hash_len; lia). cbn [fst].
        rewrite <- (hash_len p). apply firstn_all.
      - rewrite Eo. symmetry. apply (sponge_fill hash osz hash_len). lia. }
    pose proof (L _ _ _ _ E1) as O1. pose proof (L _ _ _ _ E2) as O2. rewrite O1 in O2.
    assert (S1 : forall h b, h ++ [EObserve b; ESample osz] = (h ++ [EObserve b]) ++ [ESample osz])
      by (intros; now rewrite <- app_assoc).
    rewrite !S1.
    destruct (bytes_eq_dec (absorbed (st (h1 ++ [EObserve b1]))) (absorbed (st (h2 ++ [EObserve b2])))) as [Q|Q].
    - destruct (binding_core _ (h1 ++ [EObserve b1]) (h2 ++ [EObserve b2]) (le_n _) A1 A2) as [H|C]; auto.
      + now exists h1, b1.
      + now exists h2, b2.
      + left. apply app_inj_tail in H as [-> H]. now injection H as ->.
      + right. now apply collision_incl.
    - right. eexists _, _. split; [|split; [|split; [exact Q|exact O2]]].
      + destruct (st_after_sample (h1 ++ [EObserve b1]) osz osz_pos) as (k & Hk & _ & _ & _ & _ & I).
        { right. now exists h1, b1. }
        specialize (I 0 Hk). rewrite pend_snoc in I. exact I.
      + destruct (st_after_sample (h2 ++ [EObserve b2]) osz osz_pos) as (k & Hk & _ & _ & _ & _ & I).
        { right. now exists h2, b2. }
        specialize (I 0 Hk). rewrite pend_snoc in I. exact I.
  Qed.
End Binding.

(** A toy hash function with two bytes of output and a block of three, to run the model. *)
Definition toy_hash (l : list byte) : list byte :=
  let s := fold_left (fun a b => (a * 31 + b + 7) mod 65521)%N l 1%N in le_bytes 2 s.

Example challenger_ex :
  (forall x, length (toy_hash x) = 2) /\
  let h := [ESample 3; EObserve [1; 2; 3; 4; 5]%N; ESample 1] in
  alternating None (h ++ [EObserve [9]%N]) /\
  option_map fst (run toy_hash 2 3 (challenger_default toy_hash) (h ++ [EObserve [9]%N; ESample 2])) =
    Some [[1; 0; 192]; [80]; [57; 0]]%N /\
  option_map fst (run toy_hash 2 3 (challenger_default toy_hash)
    [ESample 1; ESample 2; EObserve [1; 2; 3; 4]%N; EObserve []; EObserve [5]%N; ESample 1;
     EObserve [9]%N; ESample 1; ESample 1]) =
    Some [[1]; [0; 192]; [80]; [57]; [0]]%N.
Proof.
  split; [intros; apply le_bytes_length|]. split; [cbn; repeat split; try discriminate; lia|].
  split; vm_compute; reflexivity.
Qed.
