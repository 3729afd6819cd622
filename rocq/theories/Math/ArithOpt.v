(** Proofs about arithmetic circuits: de-duplication and removal of unused steps. *)
Require Import Coq.NArith.NArith Coq.setoid_ring.Ring Coq.Arith.Arith Coq.Lists.List Coq.Bool.Bool Lia.
From Verif Require Import Base.Fld Base.Lists Base.Sums Math.ArithModel Math.ArithProofs.
Import ListNotations.
Local Close Scope N_scope.
Local Open Scope nat_scope.
Local Arguments N.pow : simpl never.
Local Arguments N.mul : simpl never.

Section Opt.
  Variable F : field.
  Local Open Scope fld_scope.
  Add Ring Fring : (f_ring F).

  (* ---------------------------------------------------------------- *)
  (** * Equality of sub-circuits *)
  Lemma node_eq_sound (q : list F) (c1 c2 : circuit F) v1 v2 : valid q c1 v1 -> valid q c2 v2 ->
    forall fuel i j, node_eq fuel c1 i c2 j = Some true ->
    exists v, nth_error v1 i = Some v /\ nth_error v2 j = Some v.
  Proof.
    intros V1 V2. induction fuel as [|fuel IH]; intros i j H; [discriminate|]. cbn [node_eq] in H.
    destruct (nth_error c1 i) as [a|] eqn:EA; [|discriminate]. cbn [obind] in H.
    destruct (nth_error c2 j) as [b|] eqn:EB; [|discriminate]. cbn [obind] in H.
    destruct (valid_at _ _ _ _ _ _ V1 EA) as [x [Ex Sx]]. destruct (valid_at _ _ _ _ _ _ V2 EB) as [y [Ey Sy]].
    assert (G : x = y); [|subst y; eauto].
    destruct a as [l r|l r|l e|v|v], b as [l' r'|l' r'|l' e'|v'|v']; try discriminate.
    - destruct (node_eq fuel c1 l c2 l') as [[|]|] eqn:E1; try discriminate. cbn in H.
      destruct (IH _ _ E1) as [w [A B]]. destruct (IH _ _ H) as [w' [A' B']]. cbn in Sx, Sy.
      rewrite A, A' in Sx. rewrite B, B' in Sy. congruence.
    - destruct (node_eq fuel c1 l c2 l') as [[|]|] eqn:E1; try discriminate. cbn in H.
      destruct (IH _ _ E1) as [w [A B]]. destruct (IH _ _ H) as [w' [A' B']]. cbn in Sx, Sy.
      rewrite A, A' in Sx. rewrite B, B' in Sy. congruence.
    - destruct (node_eq fuel c1 l c2 l') as [[|]|] eqn:E1; try discriminate. cbn in H.
      destruct (IH _ _ E1) as [w [A B]]. cbn in Sx, Sy. rewrite A in Sx. rewrite B in Sy.
      injection H as H. apply N.eqb_eq in H. subst e'. congruence.
    - injection H as H. apply feqb_t in H. subst v'. cbn in *. congruence.
    - injection H as H. apply Nat.eqb_eq in H. subst v'. cbn in *. congruence.
  Qed.

  Lemma node_eq_some (c1 c2 : circuit F) : wf c1 -> wf c2 -> forall fuel i j, (i < fuel)%nat -> (i < length c1)%nat -> (j < length c2)%nat ->
    exists b, node_eq fuel c1 i c2 j = Some b.
  Proof.
    intros W1 W2. induction fuel as [|fuel IH]; intros i j Hf Hi Hj; [lia|]. cbn [node_eq].
    destruct (nth_error_ex c1 i Hi) as [a EA]. destruct (nth_error_ex c2 j Hj) as [b EB]. rewrite EA, EB. cbn [obind].
    destruct (W1 _ _ EA) as [R1 _]. destruct (W2 _ _ EB) as [R2 _].
    assert (G : forall x y, In x (refs a) -> In y (refs b) -> exists z, node_eq fuel c1 x c2 y = Some z).
    { intros x y Hx Hy. specialize (R1 x Hx). specialize (R2 y Hy). apply IH; lia. }
    destruct a as [l r|l r|l e|v|v], b as [l' r'|l' r'|l' e'|v'|v']; eauto; cbn [refs] in G.
    - destruct (G l l') as [z ->]; [now left|now left|]. cbn [obind]. destruct z; [|eauto]. apply G; cbn; auto.
    - destruct (G l l') as [z ->]; [now left|now left|]. cbn [obind]. destruct z; [|eauto]. apply G; cbn; auto.
    - destruct (G l l') as [z ->]; [now left|now left|]. cbn [obind]. eauto.
  Qed.

  (* ---------------------------------------------------------------- *)
  (** * De-duplication *)
  Lemma find_node_ok (c : circuit F) i : wf c -> (i < length c)%nat -> forall keys, (forall k, In k keys -> (k < length c)%nat) ->
    exists o, find_node c keys i = Some o /\
      forall k, o = Some k -> In k keys /\ node_eq (S (length c)) c k c i = Some true.
  Proof.
    intros W Hi. induction keys as [|k ks IH]; intros HK.
    - exists None. split; [reflexivity|]. discriminate.
    - cbn [find_node]. assert (Hk : (k < length c)%nat) by (apply HK; now left).
      destruct (node_eq_some c c W W (S (length c)) k i) as [b E]; auto. rewrite E. cbn [obind].
      destruct b.
      + exists (Some k). split; auto. intros k' Hk'. injection Hk' as <-. split; auto. now left.
      + destruct IH as [o [Eo Ho]]; [intros; apply HK; now right|]. exists o. split; auto.
        intros k' Hk'. destruct (Ho k' Hk'). split; auto. now right.
  Qed.

  Lemma dedup_indices_ok (c : circuit F) : wf c -> exists keys idx, dedup_indices c = Some (keys, idx) /\
    length idx = length c /\
    forall i k, nth_error idx i = Some k -> (k <= i)%nat /\
      (k = i \/ node_eq (S (length c)) c k c i = Some true).
  Proof.
    intros W. unfold dedup_indices.
    assert (G : forall n, (n <= length c)%nat -> exists keys idx,
      ofold (fun st i => do k <- find_node c (fst st) i;
        Some (match k with Some k => (fst st, snd st ++ [k]) | None => (fst st ++ [i], snd st ++ [i]) end))
        (seq 0 n) ([], []) = Some (keys, idx) /\
      length idx = n /\ (forall k, In k keys -> (k < n)%nat) /\
      forall i k, nth_error idx i = Some k -> (k <= i)%nat /\ (k = i \/ node_eq (S (length c)) c k c i = Some true)).
    { induction n as [|n IH]; intros Hn.
      - exists [], []. repeat split; auto; [intros k []| |]; destruct i; discriminate.
      - destruct IH as [keys [idx [E [L [HK HI]]]]]; [lia|]. rewrite seq_S, ofold_app, E. cbn [ofold obind Nat.add fst snd].
        destruct (find_node_ok c n W ltac:(lia) keys) as [o [Eo Ho]]; [intros k Hk; specialize (HK k Hk); lia|].
        rewrite Eo. cbn [obind]. destruct o as [k|].
        + destruct (Ho k eq_refl) as [Ik Nk]. exists keys, (idx ++ [k]). split; auto.
          split; [rewrite app_length; cbn; lia|]. split; [intros x Hx; specialize (HK x Hx); lia|].
          intros i x Hx. destruct (Nat.lt_ge_cases i (length idx)).
          * rewrite nth_error_app1 in Hx by auto. auto.
          * pose proof (nth_error_lt _ _ _ Hx) as Hl. rewrite app_length in Hl. cbn in Hl.
            assert (i = length idx) by lia. subst i. rewrite nth_error_app_last in Hx. injection Hx as <-.
            rewrite L. split; [specialize (HK k Ik); lia|auto].
        + exists (keys ++ [n]), (idx ++ [n]). split; auto.
          split; [rewrite app_length; cbn; lia|]. split.
          * intros x Hx. apply in_app_iff in Hx. destruct Hx as [Hx|[<-|[]]]; [specialize (HK x Hx)|]; lia.
          * intros i x Hx. destruct (Nat.lt_ge_cases i (length idx)).
            -- rewrite nth_error_app1 in Hx by auto. auto.
            -- pose proof (nth_error_lt _ _ _ Hx) as Hl. rewrite app_length in Hl. cbn in Hl.
               assert (i = length idx) by lia. subst i. rewrite nth_error_app_last in Hx. injection Hx as <-. lia. }
    destruct (G (length c) (le_n _)) as [keys [idx [E [L [_ H]]]]]. eauto.
  Qed.

  (** The same step with other references. *)
  Definition map_refs (f : nat -> nat) (s : step F) : step F :=
    match s with SAdd l r => SAdd (f l) (f r) | SMul l r => SMul (f l) (f r) | SPow b e => SPow (f b) e | s => s end.
  Lemma map_refs_ext f g (s : step F) : (forall r, In r (refs s) -> f r = g r) -> map_refs f s = map_refs g s.
  Proof. destruct s; cbn; intros H; auto; rewrite !H; auto. Qed.
  Lemma map_refs_id (s : step F) : map_refs (fun r => r) s = s.
  Proof. now destruct s. Qed.

  (** Redirecting the references of a step to steps with the same values. *)
  Lemma redirect_some (m : list nat) (s : step F) : (forall r, In r (refs s) -> (r < length m)%nat) ->
    exists s', redirect m s = Some s' /\ refs s' = map (fun r => nth r m 0%nat) (refs s) /\ (exp_ok s -> exp_ok s') /\
      (forall q vs vs', (forall r x, In r (refs s) -> nth_error vs r = Some x -> nth_error vs' (nth r m 0%nat) = Some x) ->
        forall v, step_val q vs s = Some v -> step_val q vs' s' = Some v) /\ s' = map_refs (fun r => nth r m 0%nat) s.
  Proof.
    intros H. destruct s as [l r|l r|b e|v|i]; cbn [redirect refs map] in *.
    - rewrite (nth_error_nth_eq m l 0%nat) by (apply H; now left). cbn [obind].
      rewrite (nth_error_nth_eq m r 0%nat) by (apply H; right; now left). cbn [obind].
      eexists. split; [reflexivity|]. split; [reflexivity|]. split; [auto|]. split; [|reflexivity]. intros q vs vs' HV v E. cbn in *.
      destruct (nth_error vs l) eqn:E1; [|discriminate]. destruct (nth_error vs r) eqn:E2; [|discriminate].
      rewrite (HV l _ (or_introl eq_refl) E1), (HV r _ (or_intror (or_introl eq_refl)) E2). exact E.
    - rewrite (nth_error_nth_eq m l 0%nat) by (apply H; now left). cbn [obind].
      rewrite (nth_error_nth_eq m r 0%nat) by (apply H; right; now left). cbn [obind].
      eexists. split; [reflexivity|]. split; [reflexivity|]. split; [auto|]. split; [|reflexivity]. intros q vs vs' HV v E. cbn in *.
      destruct (nth_error vs l) eqn:E1; [|discriminate]. destruct (nth_error vs r) eqn:E2; [|discriminate].
      rewrite (HV l _ (or_introl eq_refl) E1), (HV r _ (or_intror (or_introl eq_refl)) E2). exact E.
    - rewrite (nth_error_nth_eq m b 0%nat) by (apply H; now left). cbn [obind].
      eexists. split; [reflexivity|]. split; [reflexivity|]. split; [auto|]. split; [|reflexivity]. intros q vs vs' HV v E. cbn in *.
      destruct (nth_error vs b) eqn:E1; [|discriminate]. rewrite (HV b _ (or_introl eq_refl) E1). exact E.
    - eexists. split; [reflexivity|]. auto.
    - eexists. split; [reflexivity|]. auto.
  Qed.

  Lemma deduplicate_ok (c : circuit F) : wf c -> exists c', deduplicate_steps c = Some c' /\ length c' = length c /\ wf c' /\
    (forall q vs, valid q c vs -> valid q c' vs) /\
    exists idx, length idx = length c /\
      (forall i k, nth_error idx i = Some k -> (k <= i)%nat /\ (k = i \/ node_eq (S (length c)) c k c i = Some true)) /\
      forall i s, nth_error c i = Some s -> nth_error c' i = Some (map_refs (fun r => nth r idx 0%nat) s).
  Proof.
    intros W. unfold deduplicate_steps. destruct (dedup_indices_ok c W) as [keys [idx [E [L HI]]]]. rewrite E. cbn [obind snd].
    assert (LT : forall i s, nth_error c i = Some s -> forall r, In r (refs s) -> (r < length idx)%nat).
    { intros i s Hs r Hr. destruct (W _ _ Hs) as [R _]. specialize (R r Hr). apply nth_error_lt in Hs. lia. }
    assert (OM : forall l : circuit F, (forall s, In s l -> forall r, In r (refs s) -> (r < length idx)%nat) ->
      exists l', omap (redirect idx) l = Some l' /\ length l' = length l /\
        forall i s, nth_error l i = Some s -> exists s', nth_error l' i = Some s' /\ redirect idx s = Some s').
    { induction l as [|s l IH]; intros HL.
      - exists []. repeat split; auto. intros [|i] s H; discriminate.
      - cbn [omap]. destruct (redirect_some idx s) as [s' [Es _]]; [apply HL; now left|]. rewrite Es.
        destruct IH as [l' [El [Ll Hl]]]; [intros; eapply HL; eauto; now right|]. rewrite El.
        exists (s' :: l'). split; auto. split; [cbn; lia|]. intros [|i] t Ht; cbn in *; [injection Ht as <-; eauto|auto]. }
    destruct (OM c) as [c' [Ec [Lc Hc]]].
    { intros s Hs r Hr. apply In_nth_error in Hs. destruct Hs as [i Hi]. eauto. }
    exists c'. split; auto. split; auto.
    assert (P : forall i s', nth_error c' i = Some s' -> exists s, nth_error c i = Some s /\ redirect idx s = Some s').
    { intros i s' Hs'. destruct (nth_error_ex c i) as [s Hs]; [apply nth_error_lt in Hs'; lia|].
      destruct (Hc _ _ Hs) as [s'' [A B]]. exists s. split; auto. congruence. }
    split; [|split].
    - intros i s' Hs'. destruct (P _ _ Hs') as [s [Hs Er]]. destruct (W _ _ Hs) as [R X].
      destruct (redirect_some idx s) as [s'' [Es [Rs [Xs _]]]]; [eauto|]. rewrite Er in Es. injection Es as <-.
      split; auto. intros r Hr. rewrite Rs in Hr. apply in_map_iff in Hr. destruct Hr as [r0 [<- Hr]].
      specialize (R r0 Hr). assert (Hl : (r0 < length idx)%nat) by eauto.
      pose proof (nth_error_nth_eq idx r0 0%nat Hl) as Q. apply HI in Q. lia.
    - intros q vs V. pose proof V as [Lv HV]. split; [lia|]. intros i s' Hs'.
      destruct (P _ _ Hs') as [s [Hs Er]]. destruct (W _ _ Hs) as [R X]. specialize (HV _ _ Hs).
      destruct (nth_error_ex vs i) as [v Ev]; [apply nth_error_lt in Hs; lia|]. rewrite Ev in *.
      destruct (redirect_some idx s) as [s'' [Es [Rs [Xs [VS _]]]]]; [eauto|]. rewrite Er in Es. injection Es as <-.
      revert HV. apply VS. intros r x Hr Ex.
      specialize (R r Hr). rewrite nth_error_firstn, (proj2 (Nat.ltb_lt r i)) in Ex by auto.
      assert (Hl : (r < length idx)%nat) by eauto.
      pose proof (nth_error_nth_eq idx r 0%nat Hl) as Q. apply HI in Q. destruct Q as [Q1 Q2].
      rewrite nth_error_firstn, (proj2 (Nat.ltb_lt _ i)) by lia.
      destruct Q2 as [->|Q2]; auto.
      destruct (node_eq_sound q c c vs vs V V _ _ _ Q2) as [w [A B]]. congruence.
    - exists idx. split; auto. split; auto. intros i s Hs. destruct (Hc _ _ Hs) as [s' [Hs' Er]].
      destruct (redirect_some idx s) as [s'' [Es [_ [_ [_ ->]]]]]; [eauto|]. congruence.
  Qed.

  (* ---------------------------------------------------------------- *)
  (** * Marking used steps *)
  Definition isu (used : list bool) (i : nat) : bool := nth i used false.

  Lemma isu_upd used i j : (i < length used)%nat -> isu (upd used i true) j = if (j =? i)%nat then true else isu used j.
  Proof. intros H. unfold isu. rewrite upd_nth, (proj2 (Nat.ltb_lt _ _) H), andb_true_r. reflexivity. Qed.

  Definition mark_post (c : circuit F) (used used' : list bool) : Prop :=
    length used' = length used /\
    (forall j, isu used j = true -> isu used' j = true) /\
    (forall j s, isu used' j = true -> isu used j = false -> nth_error c j = Some s ->
       forall r, In r (refs s) -> isu used' r = true).

  Lemma mark_post_trans c u0 u1 u2 : mark_post c u0 u1 -> mark_post c u1 u2 -> mark_post c u0 u2.
  Proof.
    intros [L1 [M1 C1]] [L2 [M2 C2]]. split; [congruence|]. split; [auto|].
    intros j s H2 H0 Hs r Hr. destruct (isu u1 j) eqn:E.
    - apply M2. eapply C1; eauto.
    - eapply C2; eauto.
  Qed.

  Lemma mark_used_ok (c : circuit F) : wf c -> forall fuel i used, length used = length c -> (i < fuel)%nat -> (i < length c)%nat ->
    exists used', mark_used fuel c i used = Some used' /\ mark_post c used used' /\ isu used' i = true.
  Proof.
    intros W. induction fuel as [|fuel IH]; intros i used L Hf Hi; [lia|]. cbn [mark_used].
    rewrite (nth_error_nth_eq used i false) by lia. cbn [obind]. fold (isu used i).
    destruct (isu used i) eqn:U.
    - exists used. split; auto. split; [|auto]. split; auto. split; auto. intros; congruence.
    - destruct (nth_error_ex c i Hi) as [s Es]. rewrite Es. cbn [obind]. destruct (W _ _ Es) as [R _].
      set (u0 := upd used i true).
      assert (L0 : length u0 = length c) by (unfold u0; now rewrite upd_length).
      assert (U0 : isu u0 i = true) by (unfold u0; rewrite isu_upd, Nat.eqb_refl by lia; reflexivity).
      (* what remains is to mark the references of s *)
      assert (FIN : forall u', mark_post c u0 u' -> (forall r, In r (refs s) -> isu u' r = true) -> mark_post c used u').
      { intros u' [L1 [M1 C1]] HR. split; [unfold u0 in L1; rewrite upd_length in L1; auto|]. split.
        - intros j Hj. apply M1. unfold u0. rewrite isu_upd by lia. destruct (j =? i)%nat; auto.
        - intros j s' H1 H0 Hs' r Hr. destruct (Nat.eq_dec j i) as [->|NE].
          + rewrite Es in Hs'. injection Hs' as <-. auto.
          + eapply C1; eauto. unfold u0. rewrite isu_upd by lia. now rewrite (proj2 (Nat.eqb_neq j i) NE). }
      assert (RF : mark_post c u0 u0) by (split; auto; split; auto; intros; congruence).
      destruct s as [l r|l r|b e|v|x]; cbn [refs] in *.
      + destruct (IH l u0) as [u1 [E1 [P1 Q1]]]; auto; try (specialize (R l (or_introl eq_refl)); lia).
        rewrite E1. cbn [obind].
        destruct (IH r u1) as [u2 [E2 [P2 Q2]]]; try (specialize (R r (or_intror (or_introl eq_refl))); lia).
        { destruct P1 as [P1 _]. congruence. }
        exists u2. split; auto. split.
        * apply FIN; [eapply mark_post_trans; eauto|]. intros y [<-|[<-|[]]]; auto. now apply P2.
        * apply P2. now apply P1.
      + destruct (IH l u0) as [u1 [E1 [P1 Q1]]]; auto; try (specialize (R l (or_introl eq_refl)); lia).
        rewrite E1. cbn [obind].
        destruct (IH r u1) as [u2 [E2 [P2 Q2]]]; try (specialize (R r (or_intror (or_introl eq_refl))); lia).
        { destruct P1 as [P1 _]. congruence. }
        exists u2. split; auto. split.
        * apply FIN; [eapply mark_post_trans; eauto|]. intros y [<-|[<-|[]]]; auto. now apply P2.
        * apply P2. now apply P1.
      + destruct (IH b u0) as [u1 [E1 [P1 Q1]]]; auto; try (specialize (R b (or_introl eq_refl)); lia).
        exists u1. split; auto. split; [|now apply P1]. apply FIN; auto. intros y [<-|[]]; auto.
      + exists u0. split; auto; split; auto; apply FIN; auto; intros y [].
      + exists u0. split; auto; split; auto; apply FIN; auto; intros y [].
  Qed.

  (* ---------------------------------------------------------------- *)
  (** * Compression *)
  Definition rank (used : list bool) (n : nat) : nat := length (filter (isu used) (seq 0 n)).

  Lemma rank_S used n : rank used (S n) = (rank used n + if isu used n then 1 else 0)%nat.
  Proof.
    unfold rank. rewrite seq_S, filter_app, app_length. cbn [filter Nat.add]. destruct (isu used n); reflexivity.
  Qed.
  Lemma rank_le used n : (rank used n <= n)%nat.
  Proof. induction n; [reflexivity|]. rewrite rank_S. destruct (isu used n); lia. Qed.
  Lemma rank_mono used n m : (n <= m)%nat -> (rank used n <= rank used m)%nat.
  Proof. induction 1; auto. rewrite rank_S. lia. Qed.
  Lemma rank_lt used n m : (n < m)%nat -> isu used n = true -> (rank used n < rank used m)%nat.
  Proof. intros H U. pose proof (rank_mono used (S n) m H). rewrite rank_S, U in H0. lia. Qed.
  Lemma rank_full used n : rank used n = n -> forall j, (j < n)%nat -> isu used j = true /\ rank used j = j.
  Proof.
    induction n as [|n IH]; intros E j Hj; [lia|]. rewrite rank_S in E. pose proof (rank_le used n).
    destruct (isu used n) eqn:U; [|lia]. assert (rank used n = n) by lia.
    destruct (Nat.eq_dec j n) as [->|]; auto. apply IH; auto. lia.
  Qed.

  Lemma rank_nth used n j : (j < n)%nat -> isu used j = true ->
    nth_error (filter (isu used) (seq 0 n)) (rank used j) = Some j.
  Proof.
    intros H U. unfold rank. replace n with (j + (1 + (n - j - 1)))%nat by lia.
    rewrite seq_app, filter_app. rewrite nth_error_app2 by lia. rewrite Nat.sub_diag. cbn [Nat.add seq filter]. now rewrite U.
  Qed.

  Definition compressed (c : circuit F) (used : list bool) (n : nat) (st : circuit F * list nat * nat) : Prop :=
    match st with (c', m, t) =>
      t = rank used n /\ length c' = length c /\ length m = length c /\
      (forall j, (n <= j)%nat -> nth_error c' j = nth_error c j) /\
      (forall j, (j < n)%nat -> isu used j = true -> nth j m 0%nat = rank used j) /\
      (forall j s, (j < n)%nat -> isu used j = true -> nth_error c j = Some s ->
         exists s', nth_error c' (rank used j) = Some s' /\ refs s' = map (rank used) (refs s) /\ (exp_ok s -> exp_ok s') /\
           (forall q vs vs', (forall r x, In r (refs s) -> nth_error vs r = Some x -> nth_error vs' (rank used r) = Some x) ->
             forall v, step_val q vs s = Some v -> step_val q vs' s' = Some v) /\ s' = map_refs (rank used) s)
    end.

  Lemma refs_id (s : step F) q vs vs' v (rk : nat -> nat) : (forall r, In r (refs s) -> rk r = r) ->
    (forall r x, In r (refs s) -> nth_error vs r = Some x -> nth_error vs' (rk r) = Some x) ->
    step_val q vs s = Some v -> step_val q vs' s = Some v.
  Proof. intros H H'. apply step_val_ext. intros i Hi x Hx. rewrite <- (H i Hi). auto. Qed.

  Lemma compress_loop (c : circuit F) used : wf c -> length used = length c ->
    (forall j s, isu used j = true -> nth_error c j = Some s -> forall r, In r (refs s) -> isu used r = true) ->
    forall n, (n <= length c)%nat -> exists st,
      ofold (compress_step used) (seq 0 n) (c, seq 0 (length c), 0%nat) = Some st /\ compressed c used n st.
  Proof.
    intros W L CL. induction n as [|n IH]; intros Hn.
    - eexists. split; [reflexivity|]. split; auto. split; auto. split; [apply seq_length|]. split; auto.
      split; intros; lia.
    - destruct IH as [[[c' m] t] [E [Ht [Lc [Lm [HU [HM HC]]]]]]]; [lia|].
      rewrite seq_S, ofold_app, E. cbn [ofold obind Nat.add compress_step].
      rewrite (nth_error_nth_eq used n false) by lia. cbn [obind]. fold (isu used n).
      destruct (isu used n) eqn:U.
      + destruct (nth_error_ex c n) as [s Es]; [lia|]. destruct (W _ _ Es) as [R X].
        assert (RU : forall r, In r (refs s) -> isu used r = true) by (eapply CL; eauto).
        destruct (Nat.eqb_spec t n) as [EQ|NE]; cbn [negb].
        * eexists. split; [reflexivity|].
          assert (RF : rank used n = n) by congruence.
          pose proof (rank_full used n RF) as FU.
          split; [rewrite rank_S, U; lia|]. split; auto. split; auto. split; [intros; apply HU; lia|]. split.
          -- intros j Hj Uj. destruct (Nat.eq_dec j n) as [->|]; [|apply HM; auto; lia].
             (* the map is untouched at n *)
             rewrite RF. destruct (Nat.lt_ge_cases 0 1); [|lia].
             assert (MI : forall k st0, ofold (compress_step used) (seq 0 k) (c, seq 0 (length c), 0%nat) = Some st0 ->
               forall j, (k <= j < length c)%nat -> nth j (snd (fst st0)) 0%nat = j).
             { clear. induction k as [|k IHk]; intros st0 E0 j Hj.
               - cbn in E0. injection E0 as <-. cbn. rewrite seq_nth; lia.
               - rewrite seq_S, ofold_app in E0. destruct (ofold _ (seq 0 k) _) as [st1|] eqn:E1; [|discriminate].
                 specialize (IHk st1 eq_refl). cbn [obind ofold Nat.add] in E0.
                 destruct st1 as [[c1 m1] t1]. cbn [compress_step] in E0.
                 destruct (nth_error used k) as [u|]; [|discriminate]. cbn [obind] in E0. destruct u.
                 + destruct (negb (t1 =? k)%nat).
                   * destruct (nth_error c1 k); [|discriminate]. cbn [obind] in E0. destruct (redirect m1 s); [|discriminate].
                     cbn [obind] in E0. injection E0 as <-. cbn [fst snd]. rewrite upd_nth.
                     rewrite (proj2 (Nat.eqb_neq j k)) by lia. cbn [andb]. apply IHk. lia.
                   * injection E0 as <-. apply IHk. lia.
                 + injection E0 as <-. apply IHk. lia. }
             apply (MI n _ E n). lia.
          -- intros j s0 Hj Uj Hs0. destruct (Nat.eq_dec j n) as [->|]; [|apply HC; auto; lia].
             rewrite Es in Hs0. injection Hs0 as <-. exists s. rewrite RF. split; [rewrite HU by lia; auto|].
             assert (RI : forall r, In r (refs s) -> rank used r = r) by (intros r Hr; apply FU; auto).
             split; [rewrite <- (map_id (refs s)) at 1; apply map_ext_in; intros r Hr; symmetry; auto|].
             split; auto. split; [intros q vs vs' HV v; eapply refs_id; eauto|].
             rewrite <- (map_refs_id s) at 1. apply map_refs_ext. intros r Hr. symmetry. auto.
        * rewrite HU, Es by lia. cbn [obind].
          destruct (redirect_some m s) as [s' [Er [Rs [Xs [VS MR]]]]].
          { intros r Hr. specialize (R r Hr). lia. }
          rewrite Er. cbn [obind]. eexists. split; [reflexivity|].
          assert (TL : (t < n)%nat) by (pose proof (rank_le used n); lia).
          split; [rewrite rank_S, U; lia|]. split; [now rewrite !upd_length|]. split; [now rewrite upd_length|].
          split; [|split].
          -- intros j Hj. rewrite !nth_error_upd_ne by lia. apply HU. lia.
          -- intros j Hj Uj. rewrite upd_nth, Lm, (proj2 (Nat.ltb_lt n (length c))) by lia. rewrite andb_true_r.
             destruct (Nat.eqb_spec j n) as [->|]; [auto|]. apply HM; auto. lia.
          -- intros j s0 Hj Uj Hs0. destruct (Nat.eq_dec j n) as [->|NJ].
             ++ rewrite Es in Hs0. injection Hs0 as <-. exists s'. rewrite <- Ht.
                split; [rewrite nth_error_upd_eq; [reflexivity|rewrite upd_length; lia]|].
                assert (RM : forall r, In r (refs s) -> nth r m 0%nat = rank used r).
                { intros r Hr. apply HM; auto. }
                split; [rewrite Rs; apply map_ext_in; auto|]. split; auto.
                split; [|rewrite MR; apply map_refs_ext; auto].
                intros q vs vs' HV v. apply VS. intros r x Hr Hx. rewrite RM by auto. auto.
             ++ destruct (HC j s0) as [s1 [A B]]; auto; [lia|]. exists s1. split; auto.
                rewrite !nth_error_upd_ne; auto.
                ** pose proof (rank_le used j). lia.
                ** pose proof (rank_lt used j n ltac:(lia) Uj). lia.
      + eexists. split; [reflexivity|]. split; [rewrite rank_S, U; lia|]. split; auto. split; auto.
        split; [intros; apply HU; lia|]. split.
        * intros j Hj Uj. apply HM; auto. destruct (Nat.eq_dec j n) as [->|]; [congruence|lia].
        * intros j s Hj Uj. apply HC; auto. destruct (Nat.eq_dec j n) as [->|]; [congruence|lia].
  Qed.

  Lemma nth_error_map' {A B} (f : A -> B) l i : nth_error (map f l) i = option_map f (nth_error l i).
  Proof. revert i. induction l; destruct i; cbn; auto. Qed.

  Lemma compress_ok (c : circuit F) : c <> [] -> wf c -> exists c', compress_unused_steps c = Some c' /\ wf c' /\ c' <> [] /\
    (length c' <= length c)%nat /\
    (forall q vs, valid q c vs -> exists vs', valid q c' vs' /\ last vs' 0 = last vs 0) /\
    exists used, (forall j s, isu used j = true -> nth_error c j = Some s -> forall r, In r (refs s) -> isu used r = true) /\
      isu used (length c - 1) = true /\ rank used (length c - 1) = (length c' - 1)%nat /\
      (forall j s, isu used j = true -> nth_error c j = Some s -> nth_error c' (rank used j) = Some (map_refs (rank used) s)) /\
      (forall k, (k < length c')%nat -> exists j, (j < length c)%nat /\ isu used j = true /\ rank used j = k).
  Proof.
    intros NE W. unfold compress_unused_steps. destruct c as [|s0 c0] eqn:EC; [congruence|]. rewrite <- EC in *.
    set (N := length c). assert (HN : (0 < N)%nat) by (unfold N; rewrite EC; cbn; lia).
    destruct (mark_used_ok c W (S N) (N - 1) (repeat false N)) as [used [EU [[LU [_ CU]] UL]]];
      try (unfold N in *; rewrite ?repeat_length; lia).
    rewrite EU. cbn [obind]. rewrite repeat_length in LU.
    assert (F0 : forall j, isu (repeat false N) j = false).
    { intros j. unfold isu. destruct (Nat.lt_ge_cases j N); [now apply nth_repeat0|]. apply nth_overflow. now rewrite repeat_length. }
    assert (CL : forall j s, isu used j = true -> nth_error c j = Some s -> forall r, In r (refs s) -> isu used r = true).
    { intros j s Uj Hs. eapply CU; eauto. }
    destruct (compress_loop c used W LU CL N (le_n _)) as [[[c' m] t] [E [Ht [Lc [Lm [_ [_ HC]]]]]]].
    fold N in E. rewrite E. cbn [obind fst snd]. eexists. split; [reflexivity|].
    set (U := filter (isu used) (seq 0 N)).
    assert (LUs : length U = t) by (rewrite Ht; reflexivity).
    assert (TB : (t <= N)%nat) by (rewrite Ht; apply rank_le).
    assert (NU : forall k, (k < t)%nat -> exists j, nth_error U k = Some j /\ (j < N)%nat /\ isu used j = true /\ rank used j = k).
    { intros k Hk. destruct (nth_error_ex U k) as [j Ej]; [lia|]. exists j. split; auto.
      pose proof (nth_error_In _ _ Ej) as I. apply filter_In in I. destruct I as [I Uj]. apply in_seq in I.
      split; [lia|]. split; auto.
      pose proof (rank_nth used N j ltac:(lia) Uj) as Q. fold U in Q.
      assert (ND : NoDup U) by (apply NoDup_filter, seq_NoDup).
      eapply NoDup_nth_error; eauto.
      - apply nth_error_lt in Q. exact Q.
      - congruence. }
    assert (NS : forall k s', nth_error (firstn t c') k = Some s' -> exists j s, (k < t)%nat /\ nth_error U k = Some j /\ nth_error c j = Some s /\
       rank used j = k /\ isu used j = true /\ refs s' = map (rank used) (refs s) /\ (exp_ok s -> exp_ok s') /\
           (forall q vs vs', (forall r x, In r (refs s) -> nth_error vs r = Some x -> nth_error vs' (rank used r) = Some x) ->
             forall v, step_val q vs s = Some v -> step_val q vs' s' = Some v)).
    { intros k s' Hs'. rewrite nth_error_firstn in Hs'. destruct (Nat.ltb_spec k t); [|discriminate].
      destruct (NU k) as [j [A [B [C D]]]]; auto. destruct (nth_error_ex c j) as [s Es]; [auto|].
      destruct (HC j s) as [s1 [E1 [E2 [E3 [E4 _]]]]]; auto. rewrite D in E1. exists j, s.
      assert (s1 = s') by congruence. subst s1. repeat (split; auto). }
    assert (LF : length (firstn t c') = t) by (rewrite firstn_length; lia).
    split; [|split; [|split; [|split]]].
    - intros k s' Hs'. destruct (NS _ _ Hs') as [j [s [Hk [A [B [C [D [R [X _]]]]]]]]].
      destruct (W _ _ B) as [WR WX]. split; auto. intros r Hr. rewrite R in Hr. apply in_map_iff in Hr.
      destruct Hr as [r0 [<- Hr]]. rewrite <- C. apply rank_lt; auto. eapply CL; eauto.
    - intros Z. rewrite Z in LF. cbn in LF.
      pose proof (rank_lt used (N - 1) N ltac:(lia) UL). lia.
    - rewrite LF. exact TB.
    - intros q vs V. pose proof V as [Lv HV]. exists (map (fun j => nth j vs 0) U). split.
      + split; [rewrite map_length; lia|]. intros k s' Hs'.
        destruct (NS _ _ Hs') as [j [s [Hk [A [B [C [D [R [X VS]]]]]]]]].
        rewrite nth_error_map', A. cbn [option_map].
        pose proof (HV _ _ B) as SV. pose proof (nth_error_lt _ _ _ B) as Hj.
        rewrite (nth_error_nth_eq vs j 0) in SV by lia. revert SV. apply VS.
        intros r x Hr Hx. destruct (W _ _ B) as [WR _]. specialize (WR r Hr).
        assert (Ur : isu used r = true) by (eapply CL; eauto).
        assert (rank used r < k)%nat by (rewrite <- C; apply rank_lt; auto).
        rewrite nth_error_firstn, (proj2 (Nat.ltb_lt _ _)) in Hx by auto.
        rewrite nth_error_firstn, (proj2 (Nat.ltb_lt _ _)) by auto.
        rewrite nth_error_map'. pose proof (rank_nth used N r ltac:(unfold N; lia) Ur) as Q. fold U in Q. rewrite Q. cbn [option_map].
        f_equal. rewrite (nth_error_nth_eq vs r 0) in Hx by lia. congruence.
      + (* the last step is the last used step *)
        assert (EU' : U = filter (isu used) (seq 0 (N - 1)) ++ [(N - 1)%nat]).
        { unfold U. replace N with (S (N - 1)) at 1 by lia. rewrite seq_S, filter_app. cbn [filter Nat.add]. now rewrite UL. }
        rewrite EU', map_app. cbn [map]. rewrite last_last.
        assert (vs <> []) by (intros ->; cbn in Lv; unfold N in HN; lia).
        pose proof (last_nth_error F vs H) as Q. rewrite Lv in Q. fold N in Q.
        rewrite (nth_error_nth_eq vs (N - 1) 0) in Q by (unfold N in *; lia). congruence.
    - exists used. split; auto. split; auto. rewrite LF. split; [|split].
      + pose proof (rank_S used (N - 1)) as RS. replace (S (N - 1)) with N in RS by lia. rewrite UL in RS. fold N. lia.
      + intros j s Uj Hs. pose proof (nth_error_lt _ _ _ Hs) as Hj. destruct (HC j s) as [s' [A [_ [_ [_ ->]]]]]; auto.
        rewrite nth_error_firstn, (proj2 (Nat.ltb_lt _ _)); auto. rewrite Ht. apply rank_lt; auto.
      + intros k Hk. destruct (NU k Hk) as [j [_ [A [B C]]]]. eauto.
  Qed.

  Theorem optimize_ok char2 (c c1 : circuit F) : is_char2 F char2 -> c <> [] -> wf c -> optimize_constants false char2 c = Some c1 ->
    exists c', (forall wr, optimize wr char2 c = Some c') /\ wf c' /\ c' <> [] /\ (length c' <= length c)%nat /\
      forall q v, evaluate c q = Some v -> evaluate c' q = Some v.
  Proof.
    intros HC NE W E1.
    destruct (optimize_constants_ok F false char2 c c1 HC W E1) as [_ [L1 [W1 V1]]].
    destruct (deduplicate_ok c1 W1) as [c2 [E2 [L2 [W2 [V2 _]]]]].
    destruct (compress_ok c2) as [c3 [E3 [W3 [N3 [L3 [V3 _]]]]]]; auto.
    { intros ->. destruct c; [congruence|]. cbn in *. lia. }
    exists c3. split.
    - intros wr. unfold optimize. destruct (optimize_constants_ok F wr char2 c c1 HC W E1) as [-> _]. cbn [obind].
      rewrite E2. cbn [obind]. exact E3.
    - split; auto. split; auto. split; [lia|]. intros q v Ev. apply evaluate_valid in Ev. destruct Ev as [vs [V ->]].
      destruct (V3 q vs) as [vs' [V' LV]]; auto. apply evaluate_valid. exists vs'. auto.
  Qed.
End Opt.
