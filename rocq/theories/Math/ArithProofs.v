(** Proofs about arithmetic circuits: evaluation, constructors, optimisation. *)
Require Import Coq.NArith.NArith Coq.setoid_ring.Ring Coq.Arith.Arith Coq.Lists.List Coq.Bool.Bool Lia.
From Verif Require Import Base.Fld Base.Lists Base.Sums Math.ArithModel.
Import ListNotations.
Local Close Scope N_scope.
Local Open Scope nat_scope.

Lemma nth_error_app_last {A} (l : list A) x : nth_error (l ++ [x]) (length l) = Some x.
Proof. rewrite nth_error_app2, Nat.sub_diag by lia. reflexivity. Qed.

Lemma nth_error_app_l {A} (l l' : list A) i x : nth_error l i = Some x -> nth_error (l ++ l') i = Some x.
Proof. intros H. rewrite nth_error_app1; auto. eapply nth_error_lt; eauto. Qed.

Local Arguments N.pow : simpl never.
Local Arguments N.mul : simpl never.

Section Proofs.
  Variable F : field.
  Local Open Scope fld_scope.
  Add Ring Fring : (f_ring F).

  Lemma feqb_t (x y : F) : feqb x y = true -> x = y.
  Proof. destruct (feqb_spec F x y); [auto|discriminate]. Qed.

  (** exponentiation *)
  Lemma ppow_aux (x : F) e k : fold_left (fun res i => let res := res * res in if N.testbit e (N.of_nat i) then res * x else res)
      (rev (seq 0 k)) 1 = fpow x (N.to_nat (e mod 2 ^ N.of_nat k)).
  Proof.
    assert (G : forall k m, fold_left (fun res i => let res := res * res in if N.testbit e (N.of_nat i) then res * x else res)
      (rev (seq 0 k)) (fpow x m) = fpow x (m * N.to_nat (2 ^ N.of_nat k) + N.to_nat (e mod 2 ^ N.of_nat k))).
    { clear k. induction k as [|k IH]; intros m.
      - cbn [seq rev fold_left]. change (N.of_nat 0) with 0%N. rewrite N.pow_0_r, N.mod_1_r. cbn [N.to_nat].
        change (N.to_nat 1) with 1%nat. f_equal. lia.
      - rewrite seq_S, rev_app_distr. cbn [rev app fold_left Nat.add].
        assert (E : (e mod 2 ^ N.of_nat (S k) = N.b2n (N.testbit e (N.of_nat k)) * 2 ^ N.of_nat k + e mod 2 ^ N.of_nat k)%N).
        { rewrite Nat2N.inj_succ, N.pow_succ_r', (N.mul_comm 2), N.mod_mul_r by (try apply N.pow_nonzero; lia).
          rewrite N.add_comm. f_equal. rewrite N.mul_comm. f_equal.
          now rewrite N.testbit_spec'. }
        assert (P : N.to_nat (2 ^ N.of_nat (S k)) = (2 * N.to_nat (2 ^ N.of_nat k))%nat).
        { rewrite Nat2N.inj_succ, N.pow_succ_r', N2Nat.inj_mul. reflexivity. }
        assert (Q : fpow x m * fpow x m = fpow x (2 * m)) by (rewrite <- fpow_add; f_equal; lia).
        cbv zeta. rewrite Q.
        destruct (N.testbit e (N.of_nat k)) eqn:T.
        + replace (fpow x (2 * m) * x) with (fpow x (S (2 * m))) by (cbn [fpow]; ring).
          rewrite IH, E, P, N2Nat.inj_add, N2Nat.inj_mul. cbn [N.b2n]. change (N.to_nat 1) with 1%nat. f_equal. lia.
        + rewrite IH, E, P, N2Nat.inj_add, N2Nat.inj_mul. cbn [N.b2n]. change (N.to_nat 0) with 0%nat. f_equal. lia. }
    apply (G k 0%nat).
  Qed.

  Lemma ppow_ok (x : F) e : (e < 2 ^ 64)%N -> ppow x e = fpow x (N.to_nat e).
  Proof.
    intros H. unfold ppow. rewrite ppow_aux. change (N.of_nat 64) with 64%N. rewrite N.mod_small; auto.
  Qed.

  (* ---------------------------------------------------------------- *)
  (** * Well-formed circuits and their values *)
  Definition refs (s : step F) : list nat :=
    match s with SAdd l r | SMul l r => [l; r] | SPow b _ => [b] | _ => [] end.
  Definition exp_ok (s : step F) : Prop := match s with SPow _ e => (e < 2 ^ 64)%N | _ => True end.
  (** every step refers to earlier steps only; exponents are 64-bit *)
  Definition wf (c : circuit F) : Prop :=
    forall i s, nth_error c i = Some s -> (forall r, In r (refs s) -> (r < i)%nat) /\ exp_ok s.

  Definition valid (q : list F) (c : circuit F) (vs : list F) : Prop :=
    length vs = length c /\
    forall i s, nth_error c i = Some s -> step_val q (firstn i vs) s = nth_error vs i.

  Lemma step_val_ext q (vs vs' : list F) s v :
    (forall i, In i (refs s) -> forall x, nth_error vs i = Some x -> nth_error vs' i = Some x) ->
    step_val q vs s = Some v -> step_val q vs' s = Some v.
  Proof.
    intros H E. destruct s; cbn in *; auto.
    - destruct (nth_error vs l) eqn:E1; [|discriminate]. cbn in E. destruct (nth_error vs r) eqn:E2; [|discriminate].
      erewrite !H; eauto.
    - destruct (nth_error vs l) eqn:E1; [|discriminate]. cbn in E. destruct (nth_error vs r) eqn:E2; [|discriminate].
      erewrite !H; eauto.
    - destruct (nth_error vs b) eqn:E1; [|discriminate]. cbn in E. erewrite H; eauto.
  Qed.

  Lemma step_val_refs q (vs : list F) s v : step_val q vs s = Some v -> forall r, In r (refs s) -> (r < length vs)%nat.
  Proof.
    intros E r Hr. destruct s; cbn in *; try tauto.
    - destruct (nth_error vs l) eqn:E1; [|discriminate]. cbn in E. destruct (nth_error vs r0) eqn:E2; [|discriminate].
      apply nth_error_lt in E1, E2. destruct Hr as [<-|[<-|[]]]; auto.
    - destruct (nth_error vs l) eqn:E1; [|discriminate]. cbn in E. destruct (nth_error vs r0) eqn:E2; [|discriminate].
      apply nth_error_lt in E1, E2. destruct Hr as [<-|[<-|[]]]; auto.
    - destruct (nth_error vs b) eqn:E1; [|discriminate]. apply nth_error_lt in E1. destruct Hr as [<-|[]]; auto.
  Qed.

  Lemma step_val_mono q (vs vs' : list F) s v : step_val q vs s = Some v -> step_val q (vs ++ vs') s = Some v.
  Proof. apply step_val_ext. intros i _ x H. now apply nth_error_app_l. Qed.

  Lemma step_val_prefix q (vs : list F) i s v : step_val q (firstn i vs) s = Some v -> step_val q vs s = Some v.
  Proof. intros H. rewrite <- (firstn_skipn i vs). now apply step_val_mono. Qed.

  Lemma valid_nil q : valid q [] [].
  Proof. split; auto. intros [|i] s H; discriminate. Qed.

  Lemma valid_snoc q c vs s v : valid q c vs -> step_val q vs s = Some v -> valid q (c ++ [s]) (vs ++ [v]).
  Proof.
    intros [L H] E. split; [rewrite !app_length; cbn; lia|]. intros i s' Hs.
    destruct (Nat.lt_ge_cases i (length c)) as [Hi|Hi].
    - rewrite nth_error_app1 in Hs by auto. rewrite firstn_app.
      replace (i - length vs)%nat with 0%nat by lia. rewrite firstn_O, app_nil_r, H by auto.
      now rewrite nth_error_app1 by lia.
    - pose proof (nth_error_lt _ _ _ Hs) as Hl. rewrite app_length in Hl. cbn in Hl.
      assert (i = length c) by lia. subst i. rewrite nth_error_app_last in Hs. injection Hs as <-.
      rewrite firstn_app, firstn_all2 by lia. replace (length c - length vs)%nat with 0%nat by lia.
      rewrite firstn_O, app_nil_r, E, <- L, nth_error_app_last. reflexivity.
  Qed.

  Lemma valid_init q c s vs : valid q (c ++ [s]) vs ->
    exists vs' v, vs = vs' ++ [v] /\ valid q c vs' /\ step_val q vs' s = Some v.
  Proof.
    intros [L H]. rewrite app_length in L. cbn in L.
    destruct (exists_last (l := vs)) as [vs' [v E]]; [intros ->; cbn in L; lia|]. subst vs.
    rewrite app_length in L. cbn in L. exists vs', v. split; auto. split.
    - split; [lia|]. intros i s' Hs. pose proof (nth_error_lt _ _ _ Hs).
      specialize (H i s' (nth_error_app_l _ _ _ _ Hs)). rewrite firstn_app in H.
      replace (i - length vs')%nat with 0%nat in H by lia. rewrite firstn_O, app_nil_r in H.
      now rewrite nth_error_app1 in H by lia.
    - specialize (H _ _ (nth_error_app_last c s)). rewrite firstn_app in H.
      replace (length c - length vs')%nat with 0%nat in H by lia. rewrite firstn_O, app_nil_r, firstn_all2 in H by lia.
      rewrite H. replace (length c) with (length vs') by lia. apply nth_error_app_last.
  Qed.

  Lemma evals_valid q c vs : evals q c = Some vs <-> valid q c vs.
  Proof.
    revert vs. induction c as [|s c IH] using rev_ind; intros vs.
    - unfold evals. cbn. split.
      + intros E. injection E as <-. apply valid_nil.
      + intros [L _]. destruct vs; [reflexivity|discriminate].
    - unfold evals. rewrite ofold_app. cbn [ofold]. fold (evals q c). split.
      + destruct (evals q c) as [vs'|] eqn:E; [|discriminate]. cbn.
        destruct (step_val q vs' s) as [v|] eqn:E2; [|discriminate]. cbn. intros E3. injection E3 as <-.
        apply valid_snoc; auto. now apply IH.
      + intros V. apply valid_init in V. destruct V as [vs' [v [-> [V E]]]]. apply IH in V. rewrite V. cbn.
        rewrite E. reflexivity.
  Qed.

  Lemma valid_unique q c vs vs' : valid q c vs -> valid q c vs' -> vs = vs'.
  Proof. intros H H'. apply evals_valid in H, H'. congruence. Qed.

  Lemma evaluate_valid q c v : evaluate c q = Some v <-> exists vs, valid q c vs /\ v = last vs 0.
  Proof.
    unfold evaluate. split.
    - destruct (evals q c) as [vs|] eqn:E; [|discriminate]. cbn. intros H. injection H as <-.
      exists vs. split; auto. now apply evals_valid.
    - intros [vs [V ->]]. apply evals_valid in V. now rewrite V.
  Qed.

  Lemma wf_nil : wf [].
  Proof. intros [|i] s H; discriminate. Qed.

  Lemma wf_snoc c s : wf c -> (forall r, In r (refs s) -> (r < length c)%nat) -> exp_ok s -> wf (c ++ [s]).
  Proof.
    intros H Hr He i s' Hs. destruct (Nat.lt_ge_cases i (length c)) as [Hi|Hi].
    - rewrite nth_error_app1 in Hs by auto. now apply H.
    - pose proof (nth_error_lt _ _ _ Hs) as Hl. rewrite app_length in Hl. cbn in Hl.
      assert (i = length c) by lia. subst i. rewrite nth_error_app_last in Hs. injection Hs as <-. auto.
  Qed.

  Lemma wf_init c s : wf (c ++ [s]) -> wf c /\ (forall r, In r (refs s) -> (r < length c)%nat) /\ exp_ok s.
  Proof.
    intros H. split.
    - intros i s' Hs. apply H. now apply nth_error_app_l.
    - apply (H (length c)). apply nth_error_app_last.
  Qed.

  (** A well-formed circuit evaluates on every query with enough values. *)
  Lemma n_vars_app (c c' : circuit F) : n_vars (c ++ c') = Nat.max (n_vars c) (n_vars c').
  Proof.
    unfold n_vars. rewrite map_app. induction (map var_bound c); cbn; auto. rewrite IHl. apply Nat.max_assoc.
  Qed.

  Lemma wf_evals q c : wf c -> (n_vars c <= length q)%nat -> exists vs, valid q c vs.
  Proof.
    induction c as [|s c IH] using rev_ind; intros W NV.
    - exists []. apply valid_nil.
    - apply wf_init in W. destruct W as [W [R _]]. rewrite n_vars_app in NV.
      destruct IH as [vs V]; [auto|lia|].
      assert (E : exists v, step_val q vs s = Some v).
      { assert (L : length vs = length c) by apply V. rewrite <- L in R.
        assert (G : forall r, In r (refs s) -> exists x, nth_error vs r = Some x).
        { intros r Hr. apply nth_error_ex. auto. }
        destruct s; cbn in *.
        - destruct (G l) as [x ->]; [auto|]. destruct (G r) as [y ->]; [auto|]. cbn. eauto.
        - destruct (G l) as [x ->]; [auto|]. destruct (G r) as [y ->]; [auto|]. cbn. eauto.
        - destruct (G b) as [x ->]; [auto|]. cbn. eauto.
        - eauto.
        - unfold n_vars in NV. cbn in NV. apply nth_error_ex. lia. }
      destruct E as [v E]. exists (vs ++ [v]). now apply valid_snoc.
  Qed.

  (* ---------------------------------------------------------------- *)
  (** * Concatenation *)
  Lemma nth_error_offset (va vb : list F) l x : nth_error vb l = Some x -> nth_error (va ++ vb) (l + length va) = Some x.
  Proof. intros H. rewrite nth_error_app2 by lia. now replace (l + length va - length va)%nat with l by lia. Qed.

  Lemma valid_concat q a b va vb : valid q a va -> valid q b vb ->
    valid q (a ++ map (offset_step (length a)) b) (va ++ vb).
  Proof.
    intros HA. pose proof (proj1 HA) as LA. revert vb. induction b as [|s b IH] using rev_ind; intros vb HB.
    - destruct HB as [L _]. destruct vb; [|discriminate]. cbn. now rewrite !app_nil_r.
    - apply valid_init in HB. destruct HB as [vb' [v [-> [HB E]]]].
      rewrite map_app, !app_assoc. cbn [map]. apply valid_snoc; auto.
      destruct s; cbn in *.
      + destruct (nth_error vb' l) eqn:E1; [|discriminate]. cbn in E. destruct (nth_error vb' r) eqn:E2; [|discriminate].
        rewrite <- LA. erewrite !nth_error_offset; eauto.
      + destruct (nth_error vb' l) eqn:E1; [|discriminate]. cbn in E. destruct (nth_error vb' r) eqn:E2; [|discriminate].
        rewrite <- LA. erewrite !nth_error_offset; eauto.
      + destruct (nth_error vb' b0) eqn:E1; [|discriminate]. cbn in E. rewrite <- LA. erewrite !nth_error_offset; eauto.
      + exact E.
      + exact E.
  Qed.

  Lemma wf_concat a b : wf a -> wf b -> wf (a ++ map (offset_step (length a)) b).
  Proof.
    intros HA. induction b as [|s b IH] using rev_ind; intros HB.
    - cbn. now rewrite app_nil_r.
    - apply wf_init in HB. destruct HB as [HB [R E]]. rewrite map_app, app_assoc. cbn [map]. apply wf_snoc; auto.
      + intros r Hr. rewrite app_length, map_length.
        destruct s; cbn in *; try tauto; repeat (destruct Hr as [<-|Hr]; [match goal with |- (?x + _ < _)%nat => specialize (R x) end; lia|]); destruct Hr.
      + destruct s; auto.
  Qed.

  Lemma last_nth_error (vs : list F) : vs <> [] -> nth_error vs (length vs - 1) = Some (last vs 0).
  Proof.
    intros H. destruct (exists_last H) as [l [x ->]]. rewrite last_last, app_length. cbn.
    replace (length l + 1 - 1)%nat with (length l) by lia. apply nth_error_app_last.
  Qed.

  Lemma cadd_valid q a b va vb : a <> [] -> b <> [] -> valid q a va -> valid q b vb ->
    exists vs, valid q (cadd a b) vs /\ last vs 0 = last va 0 + last vb 0.
  Proof.
    intros NA NB HA HB. eexists. split.
    - unfold cadd. apply valid_snoc; [apply valid_concat; eassumption|]. cbn.
      pose proof (proj1 HA). pose proof (proj1 HB).
      assert (va <> []) by (intros ->; destruct a; [congruence|discriminate]).
      assert (vb <> []) by (intros ->; destruct b; [congruence|discriminate]).
      rewrite (nth_error_app_l va vb _ (last va 0)) by (rewrite <- H; apply last_nth_error; auto). cbn.
      rewrite app_length, map_length.
      replace (length a + length b - 1)%nat with (length vb - 1 + length va)%nat.
      2:{ destruct vb; [congruence|]. cbn in *. lia. }
      rewrite (nth_error_offset va vb _ (last vb 0)) by (now apply last_nth_error). cbn. reflexivity.
    - now rewrite last_last.
  Qed.

  Lemma cmul_valid q a b va vb : a <> [] -> b <> [] -> valid q a va -> valid q b vb ->
    exists vs, valid q (cmul a b) vs /\ last vs 0 = last va 0 * last vb 0.
  Proof.
    intros NA NB HA HB. eexists. split.
    - unfold cmul. apply valid_snoc; [apply valid_concat; eassumption|]. cbn.
      pose proof (proj1 HA). pose proof (proj1 HB).
      assert (va <> []) by (intros ->; destruct a; [congruence|discriminate]).
      assert (vb <> []) by (intros ->; destruct b; [congruence|discriminate]).
      rewrite (nth_error_app_l va vb _ (last va 0)) by (rewrite <- H; apply last_nth_error; auto). cbn.
      rewrite app_length, map_length.
      replace (length a + length b - 1)%nat with (length vb - 1 + length va)%nat.
      2:{ destruct vb; [congruence|]. cbn in *. lia. }
      rewrite (nth_error_offset va vb _ (last vb 0)) by (now apply last_nth_error). cbn. reflexivity.
    - now rewrite last_last.
  Qed.

  Lemma cpow_valid q a va e : a <> [] -> valid q a va ->
    exists vs, valid q (cpow a e) vs /\ last vs 0 = ppow (last va 0) e.
  Proof.
    intros NA HA. eexists. split.
    - unfold cpow. apply valid_snoc; [eassumption|]. cbn. pose proof (proj1 HA).
      assert (va <> []) by (intros ->; destruct a; [congruence|discriminate]).
      rewrite <- H, (last_nth_error va) by auto. cbn. reflexivity.
    - now rewrite last_last.
  Qed.

  Lemma cop_wf (o : nat -> nat -> step F) a b : a <> [] -> b <> [] -> wf a -> wf b ->
    (forall l r, refs (o l r) = [l; r] /\ exp_ok (o l r)) ->
    wf ((a ++ map (offset_step (length a)) b) ++ [o (length a - 1)%nat (length (a ++ map (offset_step (length a)) b) - 1)%nat]).
  Proof.
    intros NA NB WA WB HO. apply wf_snoc.
    - now apply wf_concat.
    - intros r Hr. rewrite (proj1 (HO _ _)) in Hr. rewrite app_length, map_length in *.
      assert (0 < length a)%nat by (destruct a; [congruence|cbn; lia]).
      destruct Hr as [<-|[<-|[]]]; lia.
    - apply HO.
  Qed.

  Lemma cadd_wf a b : a <> [] -> b <> [] -> wf a -> wf b -> wf (cadd a b).
  Proof. intros. apply (cop_wf SAdd); auto. intros; split; [reflexivity|exact I]. Qed.
  Lemma cmul_wf a b : a <> [] -> b <> [] -> wf a -> wf b -> wf (cmul a b).
  Proof. intros. apply (cop_wf SMul); auto. intros; split; [reflexivity|exact I]. Qed.
  Lemma cpow_wf a e : a <> [] -> (e < 2 ^ 64)%N -> wf a -> wf (cpow a e).
  Proof.
    intros NA HE W. apply wf_snoc; auto. cbn. intros r [<-|[]]. destruct a; [congruence|cbn; lia].
  Qed.
  Lemma single_wf s : refs s = [] -> exp_ok s -> wf [s].
  Proof. intros. apply (wf_snoc [] s wf_nil); auto. rewrite H. intros r []. Qed.
  Lemma app_single_nonnil (c : circuit F) s : c ++ [s] <> [].
  Proof. now destruct c. Qed.

  (* ---------------------------------------------------------------- *)
  (** * Constant folding *)
  Lemma step_eqb_eq (a b : step F) : step_eqb a b = true -> a = b.
  Proof.
    destruct a, b; cbn; try discriminate; rewrite ?andb_true_iff, ?Nat.eqb_eq, ?N.eqb_eq; intros H.
    - destruct H; congruence.
    - destruct H; congruence.
    - destruct H; congruence.
    - apply feqb_t in H. congruence.
    - congruence.
  Qed.

  Lemma valid_at q c vs i s : valid q c vs -> nth_error c i = Some s ->
    exists v, nth_error vs i = Some v /\ step_val q vs s = Some v.
  Proof.
    intros [L H] E. pose proof (nth_error_lt _ _ _ E). destruct (nth_error_ex vs i) as [v Ev]; [lia|].
    exists v. split; auto. specialize (H i s E). rewrite Ev in H. now apply step_val_prefix in H.
  Qed.

  Lemma double0 char2 (x : F) : is_char2 F char2 -> char2 = true -> x + x = 0.
  Proof. intros H E. transitivity (x * (1 + 1)); [ring|]. rewrite (H E). ring. Qed.

  Lemma opt_step_ok wr char2 q prev vs s s' v : is_char2 F char2 -> valid q prev vs -> wf prev -> exp_ok s ->
    opt_step false char2 prev s = Some s' -> opt_step wr char2 prev s = Some s' /\
    (step_val q vs s = Some v -> step_val q vs s' = Some v).
  Proof.
    intros HC HV HW HE E. destruct s; cbn in *.
    - destruct (nth_error prev l) as [a|] eqn:EA; [|discriminate]. destruct (nth_error prev r) as [b|] eqn:EB; [|discriminate].
      cbn in *. split; [exact E|].
      destruct (valid_at _ _ _ _ _ HV EA) as [x [Ex Sx]]. destruct (valid_at _ _ _ _ _ HV EB) as [y [Ey Sy]].
      rewrite Ex, Ey. cbn. intros H. injection H as <-.
      assert (Q : (if step_eqb a b && char2 then Some (SConst 0) else Some (SAdd l r)) = Some s' ->
        step_val q vs s' = Some (x + y)).
      { destruct (step_eqb a b) eqn:SE; cbn [andb]; [|intros H; injection H as <-; cbn; now rewrite Ex, Ey].
        destruct char2; [|intros H; injection H as <-; cbn; now rewrite Ex, Ey].
        intros H; injection H as <-. cbn. apply step_eqb_eq in SE. subst b.
        rewrite Sx in Sy. injection Sy as <-. f_equal. symmetry. now apply (double0 true). }
      destruct a as [| | |va|], b as [| | |vb|]; cbn [step_eqb] in *; auto.
      all: try (cbn in Sx; injection Sx as <-).
      all: try (cbn in Sy; injection Sy as <-).
      all: try (destruct (feqb _ 0) eqn:Z; [apply feqb_t in Z; subst; injection E as <-; rewrite ?Sx, ?Sy; f_equal; ring | auto]).
      injection E as <-. reflexivity.
    - destruct (nth_error prev l) as [a|] eqn:EA; [|discriminate]. destruct (nth_error prev r) as [b|] eqn:EB; [|discriminate].
      cbn in *. split; [exact E|].
      destruct (valid_at _ _ _ _ _ HV EA) as [x [Ex Sx]]. destruct (valid_at _ _ _ _ _ HV EB) as [y [Ey Sy]].
      rewrite Ex, Ey. cbn. intros H. injection H as <-.
      destruct a as [| | |va|], b as [| | |vb|].
      all: try (cbn in Sx; injection Sx as <-).
      all: try (cbn in Sy; injection Sy as <-).
      all: repeat match goal with
        | E : (if feqb ?z 0 then _ else _) = _ |- _ =>
            let Z := fresh in destruct (feqb z 0) eqn:Z; [apply feqb_t in Z; subst z; injection E as <-; cbn; f_equal; ring|]
        | E : (if feqb ?z 1 then _ else _) = _ |- _ =>
            let Z := fresh in destruct (feqb z 1) eqn:Z; [apply feqb_t in Z; subst z; injection E as <-; rewrite ?Sx, ?Sy; f_equal; ring|]
        end.
      all: injection E as <-; cbn; rewrite ?Ex, ?Ey; reflexivity.
    - destruct (nth_error prev b) as [a|] eqn:EA; [|discriminate]. cbn in *.
      destruct (valid_at _ _ _ _ _ HV EA) as [x [Ex Sx]]. rewrite Ex.
      destruct a as [| |b' e'|va|]; try (split; [exact E|]; injection E as <-; cbn; rewrite Ex; auto).
      + destruct (mul64 false e e') as [e''|] eqn:M; [|discriminate]. cbn in E. injection E as <-.
        unfold mul64 in M |- *. destruct (N.ltb_spec (e * e') (2 ^ 64)); [|discriminate]. injection M as <-.
        split; [reflexivity|]. cbn in *. destruct (nth_error vs b') as [y|]; [|discriminate]. cbn in *.
        injection Sx as <-. intros E. injection E as <-. f_equal.
        destruct (HW _ _ EA) as [_ HE']. cbn in HE'. rewrite !ppow_ok by auto.
        rewrite N2Nat.inj_mul. apply fpow_mul.
      + split; [exact E|]. injection E as <-. cbn in *. injection Sx as <-. intros E'. exact E'.
    - split; [exact E|]. injection E as <-. auto.
    - split; [exact E|]. injection E as <-. auto.
  Qed.

  Lemma opt_step_wf char2 prev s s' : wf prev -> exp_ok s -> (forall r, In r (refs s) -> (r < length prev)%nat) ->
    opt_step false char2 prev s = Some s' -> (forall r, In r (refs s') -> (r < length prev)%nat) /\ exp_ok s'.
  Proof.
    intros HW HE HR E.
    assert (P : forall i a, nth_error prev i = Some a -> (forall r, In r (refs a) -> (r < length prev)%nat) /\ exp_ok a).
    { intros i a Ea. destruct (HW i a Ea) as [R X]. split; auto. intros r Hr. specialize (R r Hr).
      apply nth_error_lt in Ea. lia. }
    assert (K : forall v, (forall r, In r (refs (SConst v)) -> (r < length prev)%nat) /\ exp_ok (SConst v)).
    { intros v. split; [intros r []|exact I]. }
    destruct s; cbn [opt_step] in E; try (injection E as <-; auto; fail).
    - destruct (nth_error prev l) as [a|] eqn:EA; [|discriminate]. destruct (nth_error prev r) as [b|] eqn:EB; [|discriminate].
      cbn [obind] in E. pose proof (P _ _ EA). pose proof (P _ _ EB).
      destruct a, b; repeat match goal with E : (if ?c then _ else _) = _ |- _ => destruct c end; injection E as <-; auto.
    - destruct (nth_error prev l) as [a|] eqn:EA; [|discriminate]. destruct (nth_error prev r) as [b|] eqn:EB; [|discriminate].
      cbn [obind] in E. pose proof (P _ _ EA). pose proof (P _ _ EB).
      destruct a, b; repeat match goal with E : (if ?c then _ else _) = _ |- _ => destruct c end; injection E as <-; auto.
    - destruct (nth_error prev b) as [a|] eqn:EA; [|discriminate]. cbn [obind] in E. pose proof (P _ _ EA) as [PA PE].
      destruct a; try (injection E as <-; auto; fail).
      unfold mul64 in E. destruct (N.ltb_spec (e * e0) (2 ^ 64)); [|discriminate]. cbn in E. injection E as <-.
      split; auto.
  Qed.

  (** Folding constants in a build with overflow checks preserves the value of every step. *)
  Lemma optimize_constants_ok wr char2 c c' : is_char2 F char2 -> wf c -> optimize_constants false char2 c = Some c' ->
    optimize_constants wr char2 c = Some c' /\ length c' = length c /\ wf c' /\
    forall q vs, valid q c vs -> valid q c' vs.
  Proof.
    intros HC. unfold optimize_constants. revert c'. induction c as [|s c IH] using rev_ind; intros c' HW E.
    - cbn in *. injection E as <-. split; [reflexivity|]. split; [reflexivity|]. split; [apply wf_nil|auto].
    - rewrite !ofold_app in *. cbn [ofold] in *.
      destruct (ofold (fun prev s => do s' <- opt_step false char2 prev s; Some (prev ++ [s'])) c []) as [p|] eqn:EP; [|discriminate].
      apply wf_init in HW. destruct HW as [HW [HR HE]].
      destruct (IH p HW eq_refl) as [E1 [L1 [W1 V1]]]. rewrite E1. cbn [obind] in *.
      destruct (opt_step false char2 p s) as [s'|] eqn:ES; [|discriminate]. cbn [obind] in *. injection E as <-.
      destruct (opt_step_wf char2 p s s') as [R2 E2]; auto. { now rewrite L1. }
      assert (EW : opt_step wr char2 p s = Some s').
      { (* independent of the query *)
        destruct s; cbn in *; auto.
        destruct (nth_error p b) as [a|]; [|discriminate]. cbn in *. destruct a; auto.
        unfold mul64 in *. destruct (N.ltb_spec (e * e0) (2 ^ 64)); [auto|discriminate]. }
      rewrite EW. split; [reflexivity|]. split; [rewrite !app_length, L1; reflexivity|].
      split; [now apply wf_snoc|]. intros q vs HV. apply valid_init in HV. destruct HV as [vs' [v [-> [HV SV]]]].
      apply valid_snoc; auto. destruct (opt_step_ok wr char2 q p vs' s s' v) as [_ G]; auto.
  Qed.

  (** A bound that excludes overflow: the product of the exponents fits in 64 bits. *)
  Definition expo (s : step F) : N := match s with SPow _ e => N.max 1 e | _ => 1%N end.
  Definition exp_product (c : circuit F) : N := fold_right (fun s acc => (expo s * acc)%N) 1%N c.

  Lemma exp_product_app c c' : exp_product (c ++ c') = (exp_product c * exp_product c')%N.
  Proof. unfold exp_product. induction c as [|x c IH]; cbn [app fold_right]; [now rewrite N.mul_1_l|]. rewrite IH. apply N.mul_assoc. Qed.
  Lemma expo_pos s : (1 <= expo s)%N.
  Proof. destruct s; cbn; lia. Qed.
  Lemma exp_product_pos c : (1 <= exp_product c)%N.
  Proof. induction c; cbn [exp_product fold_right]; [lia|]. fold (exp_product c). pose proof (expo_pos a). nia. Qed.

  Lemma optimize_constants_some char2 c : wf c -> (exp_product c < 2 ^ 64)%N ->
    exists c', optimize_constants false char2 c = Some c' /\ length c' = length c /\
      forall i s, nth_error c' i = Some s -> (expo s <= exp_product c)%N.
  Proof.
    unfold optimize_constants. induction c as [|s c IH] using rev_ind; intros HW HE.
    - exists []. repeat split; auto. intros [|i] s H; discriminate.
    - apply wf_init in HW. destruct HW as [HW [HR HX]]. rewrite exp_product_app in *.
      cbn [exp_product fold_right] in *. rewrite N.mul_1_r in *.
      pose proof (expo_pos s). pose proof (exp_product_pos c).
      destruct IH as [p [EP [LP BP]]]; auto. { nia. }
      rewrite ofold_app, EP. cbn [obind ofold].
      assert (G : exists s', opt_step false char2 p s = Some s' /\ (expo s' <= exp_product c * expo s)%N).
      { assert (NE : forall r, In r (refs s) -> exists a, nth_error p r = Some a /\ (expo a <= exp_product c)%N).
        { intros r Hr. destruct (nth_error_ex p r) as [a Ea]; [rewrite LP; auto|]. eauto. }
        assert (M1 : (exp_product c <= exp_product c * expo s)%N) by nia.
        assert (M2 : (expo s <= exp_product c * expo s)%N) by nia.
        destruct s; cbn [opt_step refs] in *.
        - destruct (NE l) as [a [-> Ba]]; [now left|]. destruct (NE r) as [b [-> Bb]]; [right; now left|]. cbn [obind].
          destruct a, b; repeat match goal with |- context [if ?c then _ else _] => destruct c end;
            eexists; (split; [reflexivity|]); cbn [expo] in *; lia.
        - destruct (NE l) as [a [-> Ba]]; [now left|]. destruct (NE r) as [b [-> Bb]]; [right; now left|]. cbn [obind].
          destruct a, b; repeat match goal with |- context [if ?c then _ else _] => destruct c end;
            eexists; (split; [reflexivity|]); cbn [expo] in *; lia.
        - destruct (NE b) as [a [-> Ba]]; [now left|]. cbn [obind].
          destruct a; try (eexists; (split; [reflexivity|]); cbn [expo] in *; lia).
          cbn [expo] in *.
          assert (e * e0 <= exp_product c * N.max 1 e)%N by nia.
          unfold mul64. rewrite (proj2 (N.ltb_lt _ _)) by lia. cbn [obind]. eexists. split; [reflexivity|]. cbn [expo]. nia.
        - eexists; (split; [reflexivity|]); cbn [expo] in *; lia.
        - eexists; (split; [reflexivity|]); cbn [expo] in *; lia. }
      destruct G as [s' [Es Bs]]. rewrite Es. cbn [obind]. eexists. split; [reflexivity|].
      split; [rewrite !app_length, LP; reflexivity|].
      intros i s0 Hi. destruct (Nat.lt_ge_cases i (length p)) as [L|L].
      + rewrite nth_error_app1 in Hi by auto. specialize (BP _ _ Hi). nia.
      + pose proof (nth_error_lt _ _ _ Hi) as Hl. rewrite app_length in Hl. cbn in Hl.
        assert (i = length p) by lia. subst i. rewrite nth_error_app_last in Hi. injection Hi as <-. exact Bs.
  Qed.
End Proofs.

Arguments refs {_}. Arguments exp_ok {_}. Arguments wf {_}. Arguments valid {_}. Arguments expo {_}. Arguments exp_product {_}.
