(** Arithmetic circuits as expressions with sharing: the expression at a step, and what optimisation does to it. *)
Require Import Coq.NArith.NArith Coq.Arith.Arith Coq.Lists.List Coq.Bool.Bool Lia.
From Verif Require Import Base.Fld Base.Lists Base.Sums Math.ArithModel Math.ArithProofs Math.ArithOpt.
Import ListNotations.
Local Close Scope N_scope.
Local Open Scope nat_scope.

Inductive tree (F : field) : Type :=
| TC (v : F)
| TV (i : nat)
| TA (a b : tree F)
| TM (a b : tree F)
| TP (a : tree F) (e : N).
Arguments TC {_} _. Arguments TV {_} _. Arguments TA {_} _ _. Arguments TM {_} _ _. Arguments TP {_} _ _.

Section Tree.
  Context {F : field}.

  (** [unf c i t]: step [i] of [c] computes the expression [t] *)
  Inductive unf (c : circuit F) : nat -> tree F -> Prop :=
  | unf_c i v : nth_error c i = Some (SConst v) -> unf c i (TC v)
  | unf_v i x : nth_error c i = Some (SVar x) -> unf c i (TV x)
  | unf_a i l r a b : nth_error c i = Some (SAdd l r) -> unf c l a -> unf c r b -> unf c i (TA a b)
  | unf_m i l r a b : nth_error c i = Some (SMul l r) -> unf c l a -> unf c r b -> unf c i (TM a b)
  | unf_p i b e a : nth_error c i = Some (SPow b e) -> unf c b a -> unf c i (TP a e).

  Lemma unf_fun c i t t' : unf c i t -> unf c i t' -> t = t'.
  Proof.
    intros H. revert t'. induction H; intros t' H'; inversion H'; subst; try congruence.
    - rewrite H in H2. injection H2 as <- <-. f_equal; auto.
    - rewrite H in H2. injection H2 as <- <-. f_equal; auto.
    - rewrite H in H1. injection H1 as <- <-. f_equal; auto.
  Qed.
  Lemma unf_ex c i : wf c -> i < length c -> exists t, unf c i t.
  Proof.
    intros W. induction i as [i IH] using lt_wf_ind. intros Hi.
    destruct (nth_error_ex c i Hi) as [s Es]. destruct (W _ _ Es) as [R _].
    assert (G : forall r, In r (refs s) -> exists t, unf c r t) by (intros r Hr; specialize (R r Hr); apply IH; lia).
    destruct s as [l r|l r|b e|v|x]; cbn [refs In] in G.
    - destruct (G l) as [a A]; auto. destruct (G r) as [b B]; auto. eexists. eapply unf_a; eauto.
    - destruct (G l) as [a A]; auto. destruct (G r) as [b B]; auto. eexists. eapply unf_m; eauto.
    - destruct (G b) as [a A]; auto. eexists. eapply unf_p; eauto.
    - eexists. eapply unf_c; eauto.
    - eexists. eapply unf_v; eauto.
  Qed.
  Lemma unf_lt c i t : unf c i t -> i < length c.
  Proof. destruct 1; eapply nth_error_lt; eauto. Qed.
  Lemma unf_app c c' i t : unf c i t -> unf (c ++ c') i t.
  Proof.
    induction 1.
    - apply unf_c. now apply nth_error_app_l.
    - apply unf_v. now apply nth_error_app_l.
    - eapply unf_a; eauto. now apply nth_error_app_l.
    - eapply unf_m; eauto. now apply nth_error_app_l.
    - eapply unf_p; eauto. now apply nth_error_app_l.
  Qed.
  Lemma unf_copy c i s t c' j : (forall k u, unf c k u -> unf c' k u) -> unf c i t -> nth_error c i = Some s -> nth_error c' j = Some s -> unf c' j t.
  Proof.
    intros M U E E'. destruct U; rewrite E in H; injection H as ->.
    - now apply unf_c.
    - now apply unf_v.
    - eapply unf_a; eauto.
    - eapply unf_m; eauto.
    - eapply unf_p; eauto.
  Qed.

  (* ---------------------------------------------------------------- *)
  (** * Constructors *)
  Lemma unf_offset c c' i t : unf c' i t -> unf (c ++ map (offset_step (length c)) c') (i + length c) t.
  Proof.
    assert (G : forall i s, nth_error c' i = Some s -> nth_error (c ++ map (offset_step (length c)) c') (i + length c) = Some (offset_step (length c) s)).
    { intros j s E. rewrite nth_error_app2 by lia. replace (j + length c - length c) with j by lia. now apply map_nth_error. }
    induction 1.
    - apply unf_c. now rewrite (G _ _ H).
    - apply unf_v. now rewrite (G _ _ H).
    - eapply unf_a; eauto. now rewrite (G _ _ H).
    - eapply unf_m; eauto. now rewrite (G _ _ H).
    - eapply unf_p; eauto. now rewrite (G _ _ H).
  Qed.

  (** every step of the circuit computes an expression with [P]; the last step computes [t] *)
  Definition nodes (P : tree F -> Prop) (c : circuit F) : Prop := forall i, i < length c -> exists t, unf c i t /\ P t.
  Definition root (c : circuit F) (t : tree F) : Prop := unf c (length c - 1) t.

  Lemma join_nodes (mk : nat -> nat -> step F) (mt : tree F -> tree F -> tree F) P a b ta tb :
    (forall c i l r x y, nth_error c i = Some (mk l r) -> unf c l x -> unf c r y -> unf c i (mt x y)) ->
    nodes P a -> nodes P b -> root a ta -> root b tb -> P (mt ta tb) ->
    let c := (a ++ map (offset_step (length a)) b) ++ [mk (length a - 1) (length (a ++ map (offset_step (length a)) b) - 1)] in
    nodes P c /\ root c (mt ta tb).
  Proof.
    intros MK Na Nb Ra Rb Pt. cbv zeta. set (m := a ++ map (offset_step (length a)) b).
    assert (Lm : length m = length a + length b) by (unfold m; now rewrite app_length, map_length).
    pose proof (unf_lt _ _ _ Ra). pose proof (unf_lt _ _ _ Rb).
    assert (R : root (m ++ [mk (length a - 1) (length m - 1)]) (mt ta tb)).
    { unfold root. rewrite app_length. cbn [length]. replace (length m + 1 - 1) with (length m) by lia.
      eapply MK; [apply nth_error_app_last| |]; apply unf_app.
      - unfold m. now apply unf_app.
      - replace (length m - 1) with (length b - 1 + length a) by lia. now apply unf_offset. }
    split; auto. intros i Hi. rewrite app_length in Hi. cbn [length] in Hi.
    destruct (Nat.eq_dec i (length m)) as [->|].
    - exists (mt ta tb). split; auto. unfold root in R. rewrite app_length in R. cbn [length] in R.
      now replace (length m + 1 - 1) with (length m) in R by lia.
    - destruct (Nat.lt_ge_cases i (length a)).
      + destruct (Na i) as [t [U Q]]; auto. exists t. split; auto. unfold m. now apply unf_app, unf_app.
      + destruct (Nb (i - length a)) as [t [U Q]]; [lia|]. exists t. split; auto. apply unf_app.
        replace i with (i - length a + length a) by lia. now apply unf_offset.
  Qed.
  Lemma cadd_nodes P a b ta tb : nodes P a -> nodes P b -> root a ta -> root b tb -> P (TA ta tb) ->
    nodes P (cadd a b) /\ root (cadd a b) (TA ta tb).
  Proof. intros. refine (join_nodes SAdd TA P a b ta tb _ _ _ _ _ _); auto. intros. eapply unf_a; eauto. Qed.
  Lemma cmul_nodes P a b ta tb : nodes P a -> nodes P b -> root a ta -> root b tb -> P (TM ta tb) ->
    nodes P (cmul a b) /\ root (cmul a b) (TM ta tb).
  Proof. intros. refine (join_nodes SMul TM P a b ta tb _ _ _ _ _ _); auto. intros. eapply unf_m; eauto. Qed.
  Lemma cvar_nodes (P : tree F -> Prop) i : P (TV i) -> nodes P (cvar i) /\ root (cvar i) (TV i).
  Proof.
    intros H. assert (U : unf (cvar i) 0 (TV i)) by now apply unf_v. split; auto.
    intros [|j] Hj; cbn in Hj; [|lia]. eauto.
  Qed.
  Lemma cconst_nodes (P : tree F -> Prop) v : P (TC v) -> nodes P (cconst v) /\ root (cconst v) (TC v).
  Proof.
    intros H. assert (U : unf (cconst v) 0 (TC v)) by now apply unf_c. split; auto.
    intros [|j] Hj; cbn in Hj; [|lia]. eauto.
  Qed.
  Lemma nodes_weaken (P Q : tree F -> Prop) c : (forall t, P t -> Q t) -> nodes P c -> nodes Q c.
  Proof. intros H N i Hi. destruct (N i Hi) as [t [U K]]. eauto. Qed.

  (** renaming of variables *)
  Fixpoint tmap (f : nat -> nat) (t : tree F) : tree F :=
    match t with
    | TC v => TC v | TV i => TV (f i) | TA a b => TA (tmap f a) (tmap f b) | TM a b => TM (tmap f a) (tmap f b) | TP a e => TP (tmap f a) e
    end.
  Lemma remap_unf c pos c' : remap_vars c pos = Ok c' -> length c' = length c /\ forall i t, unf c i t -> unf c' i (tmap (fun x => nth x pos 0) t).
  Proof.
    unfold remap_vars. destruct (omap (remap_step pos) c) as [l|] eqn:E; [|discriminate]. intros H. injection H as ->.
    assert (G : length c' = length c /\ forall i s, nth_error c i = Some s -> exists s', nth_error c' i = Some s' /\ remap_step pos s = Some s').
    { revert c' E. induction c as [|s c IH]; intros c' E; cbn [omap] in E.
      - injection E as <-. split; auto. intros [|i] ? H; discriminate.
      - destruct (remap_step pos s) as [s'|] eqn:Es; [|discriminate]. destruct (omap (remap_step pos) c) as [l|] eqn:El; [|discriminate].
        injection E as <-. destruct (IH l eq_refl) as [L1 H1]. split; [cbn; lia|]. intros [|i] s0 H; cbn in *; [injection H as <-; eauto|auto]. }
    destruct G as [G1 G2]. split; auto. induction 1; cbn [tmap]; destruct (G2 _ _ H) as [s' [E' R']]; cbn [remap_step] in R'.
    - injection R' as <-. now apply unf_c.
    - destruct (nth_error pos x) as [j|] eqn:Ex; [|discriminate]. injection R' as <-. apply unf_v.
      now rewrite (nth_error_nth _ _ _ Ex).
    - injection R' as <-. eapply unf_a; eauto.
    - injection R' as <-. eapply unf_m; eauto.
    - injection R' as <-. eapply unf_p; eauto.
  Qed.

  (* ---------------------------------------------------------------- *)
  (** * Optimisation *)
  Lemma node_eq_unf (c : circuit F) fuel : forall i j t, node_eq fuel c i c j = Some true -> unf c j t -> unf c i t.
  Proof.
    induction fuel as [|fuel IH]; intros i j t H U; [discriminate|]. cbn [node_eq] in H.
    destruct (nth_error c i) as [a|] eqn:EA; [|discriminate]. cbn [obind] in H.
    destruct (nth_error c j) as [b|] eqn:EB; [|discriminate]. cbn [obind] in H.
    destruct U as [j v E|j x E|j l' r' ta tb E U1 U2|j l' r' ta tb E U1 U2|j x' e' ta E U1]; rewrite EB in E; injection E as ->;
      destruct a as [l r|l r|l e|w|w]; try discriminate.
    - injection H as H. apply feqb_t in H. subst w. now apply unf_c.
    - injection H as H. apply Nat.eqb_eq in H. subst w. now apply unf_v.
    - destruct (node_eq fuel c l c l') as [[|]|] eqn:E1; try discriminate. cbn [obind] in H. eapply unf_a; eauto.
    - destruct (node_eq fuel c l c l') as [[|]|] eqn:E1; try discriminate. cbn [obind] in H. eapply unf_m; eauto.
    - destruct (node_eq fuel c l c x') as [eb|] eqn:E1; [|discriminate]. cbn [obind] in H. injection H as H.
      apply andb_true_iff in H as [-> H]. apply N.eqb_eq in H. subst e. eapply unf_p; eauto.
  Qed.

  Lemma dedup_unf c c' : wf c -> deduplicate_steps c = Some c' -> wf c' /\ length c' = length c /\ forall i t, unf c i t -> unf c' i t.
  Proof.
    intros W E. destruct (deduplicate_ok F c W) as [c2 [E2 [L2 [W2 [_ [idx [LI [HI HC]]]]]]]]. rewrite E in E2. injection E2 as <-.
    split; auto. split; auto. intros i. induction i as [i IH] using lt_wf_ind. intros t U.
    assert (G : forall s r ta, nth_error c i = Some s -> In r (refs s) -> unf c r ta -> unf c' (nth r idx 0) ta).
    { intros s r ta Es Hr Ur. destruct (W _ _ Es) as [R _]. specialize (R r Hr). pose proof (unf_lt _ _ _ Ur).
      pose proof (nth_error_nth_eq idx r 0 ltac:(lia)) as Q. apply HI in Q. destruct Q as [Q1 Q2]. apply IH; [lia|].
      destruct Q2 as [->|Q2]; auto. eapply node_eq_unf; eauto. }
    destruct U as [i v E1|i x E1|i l r ta tb E1 U1 U2|i l r ta tb E1 U1 U2|i b e ta E1 U1]; pose proof (HC _ _ E1) as E1'; cbn [map_refs] in E1'.
    - now apply unf_c.
    - now apply unf_v.
    - eapply unf_a; eauto; eapply G; eauto; cbn; auto.
    - eapply unf_m; eauto; eapply G; eauto; cbn; auto.
    - eapply unf_p; eauto; eapply G; eauto; cbn; auto.
  Qed.

  Lemma compress_unf c c' : c <> [] -> wf c -> compress_unused_steps c = Some c' -> wf c' /\ c' <> [] /\
    (forall k, k < length c' -> exists j t, j < length c /\ unf c j t /\ unf c' k t) /\ (forall t, root c t -> root c' t).
  Proof.
    intros NE W E. destruct (compress_ok F c NE W) as [c2 [E2 [W2 [N2 [_ [_ [used [CL [UL [RL [HC HK]]]]]]]]]]]. rewrite E in E2. injection E2 as <-.
    assert (G : forall i t, unf c i t -> isu used i = true -> unf c' (rank used i) t).
    { induction 1; intros U; pose proof (HC _ _ U H) as H'; cbn [map_refs] in H'; pose proof (CL _ _ U H) as CR; cbn [refs In] in CR.
      - now apply unf_c.
      - now apply unf_v.
      - eapply unf_a; eauto.
      - eapply unf_m; eauto.
      - eapply unf_p; eauto. }
    split; auto. split; auto. split.
    - intros k Hk. destruct (HK k Hk) as [j [Hj [Uj <-]]]. destruct (unf_ex c j W Hj) as [t U]. exists j, t. auto.
    - intros t U. unfold root. rewrite <- RL. apply G; auto.
  Qed.

  (** what the rewriting of constants may do to a sum, a product and a power *)
  Definition sumr (a b t : tree F) : Prop :=
    t = TA a b \/ (exists x y, a = TC x /\ b = TC y /\ t = TC (x + y)%F) \/ (a = TC f0 /\ t = b) \/ (b = TC f0 /\ t = a) \/ t = TC f0.
  Definition prodr (a b t : tree F) : Prop :=
    t = TM a b \/ (exists x y, a = TC x /\ b = TC y /\ t = TC (x * y)%F) \/ (a = TC f1 /\ t = b) \/ (b = TC f1 /\ t = a) \/ ((a = TC f0 \/ b = TC f0) /\ t = TC f0).
  Definition powr (a : tree F) (e : N) (t : tree F) : Prop :=
    t = TP a e \/ (exists x, a = TC x /\ t = TC (ppow x e)) \/ (exists b e1 e2, a = TP b e1 /\ t = TP b e2).
  Inductive orel : tree F -> tree F -> Prop :=
  | orel_c v : orel (TC v) (TC v)
  | orel_v i : orel (TV i) (TV i)
  | orel_a a b a' b' t : orel a a' -> orel b b' -> sumr a' b' t -> orel (TA a b) t
  | orel_m a b a' b' t : orel a a' -> orel b b' -> prodr a' b' t -> orel (TM a b) t
  | orel_p a e a' t : orel a a' -> powr a' e t -> orel (TP a e) t.

  Lemma opt_step_unf wr char2 prev s s' : wf prev -> opt_step wr char2 prev s = Some s' -> forall n, n = length prev ->
    match s with
    | SConst v => unf (prev ++ [s']) n (TC v)
    | SVar i => unf (prev ++ [s']) n (TV i)
    | SAdd l r => forall a b, unf prev l a -> unf prev r b -> exists t, unf (prev ++ [s']) n t /\ sumr a b t
    | SMul l r => forall a b, unf prev l a -> unf prev r b -> exists t, unf (prev ++ [s']) n t /\ prodr a b t
    | SPow b e => forall a, unf prev b a -> exists t, unf (prev ++ [s']) n t /\ powr a e t
    end.
  Proof.
    intros W E n ->. unfold opt_step in E.
    assert (SE : nth_error (prev ++ [s']) (length prev) = Some s') by apply nth_error_app_last.
    assert (MO : forall k u, unf prev k u -> unf (prev ++ [s']) k u) by (intros; now apply unf_app).
    assert (CP : forall i x t, nth_error prev i = Some x -> x = s' -> unf prev i t -> unf (prev ++ [s']) (length prev) t).
    { intros i x t Ex -> Ut. eapply unf_copy; eauto. }
    assert (CC : forall i v t, nth_error prev i = Some (SConst v) -> unf prev i t -> t = TC v).
    { intros i v t Ex Ut. eapply unf_fun; eauto. now apply unf_c. }
    destruct s as [l r|l r|b e|v|x].
    - intros ta tb Ua Ub. destruct (nth_error prev l) as [a|] eqn:El; [|discriminate]. destruct (nth_error prev r) as [b|] eqn:Er; [|discriminate].
      cbn [obind] in E.
      assert (KEEP : s' = SAdd l r -> exists t, unf (prev ++ [s']) (length prev) t /\ sumr ta tb t).
      { intros ->. exists (TA ta tb). split; [|now left]. eapply unf_a; eauto. }
      assert (ZERO : s' = SConst f0 -> exists t, unf (prev ++ [s']) (length prev) t /\ sumr ta tb t).
      { intros ->. exists (TC f0). split; [now apply unf_c|unfold sumr; auto 6]. }
      assert (LEFT : forall y, b = SConst y -> y = f0 -> s' = a -> exists t, unf (prev ++ [s']) (length prev) t /\ sumr ta tb t).
      { intros y -> -> ->. exists ta. split; [apply (CP l _ _ El eq_refl Ua)|]. rewrite (CC _ _ _ Er Ub). unfold sumr. auto 6. }
      assert (RIGHT : forall y, a = SConst y -> y = f0 -> s' = b -> exists t, unf (prev ++ [s']) (length prev) t /\ sumr ta tb t).
      { intros y -> -> ->. exists tb. split; [apply (CP r _ _ Er eq_refl Ub)|]. rewrite (CC _ _ _ El Ua). unfold sumr. auto 6. }
      assert (TAIL : (if step_eqb a b && char2 then Some (SConst f0) else Some (SAdd l r)) = Some s' ->
        exists t, unf (prev ++ [s']) (length prev) t /\ sumr ta tb t).
      { destruct (step_eqb a b && char2); intros H; injection H as <-; auto. }
      destruct a as [l1 r1|l1 r1|b1 e1|x|x], b as [l2 r2|l2 r2|b2 e2|y|y]; auto;
        try (destruct (feqb x f0) eqn:FX; [apply feqb_t in FX; injection E as <-; eapply RIGHT; eauto|auto]; fail);
        try (destruct (feqb y f0) eqn:FY; [apply feqb_t in FY; injection E as <-; eapply LEFT; eauto|auto]; fail).
      injection E as <-. exists (TC (x + y)%F). split; [now apply unf_c|]. rewrite (CC _ _ _ El Ua), (CC _ _ _ Er Ub). right. left. eauto.
    - intros ta tb Ua Ub. destruct (nth_error prev l) as [a|] eqn:El; [|discriminate]. destruct (nth_error prev r) as [b|] eqn:Er; [|discriminate].
      cbn [obind] in E.
      assert (KEEP : s' = SMul l r -> exists t, unf (prev ++ [s']) (length prev) t /\ prodr ta tb t).
      { intros ->. exists (TM ta tb). split; [|now left]. eapply unf_m; eauto. }
      assert (ZERO : ta = TC f0 \/ tb = TC f0 -> s' = SConst f0 -> exists t, unf (prev ++ [s']) (length prev) t /\ prodr ta tb t).
      { intros HZ ->. exists (TC f0). split; [now apply unf_c|unfold prodr; auto 6]. }
      assert (LEFT : forall y, b = SConst y -> (if feqb y f0 then Some (SConst f0) else if feqb y f1 then Some a else Some (SMul l r)) = Some s' ->
        exists t, unf (prev ++ [s']) (length prev) t /\ prodr ta tb t).
      { intros y -> H. destruct (feqb y f0) eqn:FZ; [apply feqb_t in FZ; subst y; injection H as <-; apply ZERO; auto; right; eapply CC; eauto|].
        destruct (feqb y f1) eqn:FY; [|injection H as <-; auto]. apply feqb_t in FY. subst y. injection H as <-. exists ta. split; [apply (CP l _ _ El eq_refl Ua)|]. rewrite (CC _ _ _ Er Ub). unfold prodr. auto 6. }
      assert (RIGHT : forall y, a = SConst y -> (if feqb y f0 then Some (SConst f0) else if feqb y f1 then Some b else Some (SMul l r)) = Some s' ->
        exists t, unf (prev ++ [s']) (length prev) t /\ prodr ta tb t).
      { intros y -> H. destruct (feqb y f0) eqn:FZ; [apply feqb_t in FZ; subst y; injection H as <-; apply ZERO; auto; left; eapply CC; eauto|].
        destruct (feqb y f1) eqn:FY; [|injection H as <-; auto]. apply feqb_t in FY. subst y. injection H as <-. exists tb. split; [apply (CP r _ _ Er eq_refl Ub)|]. rewrite (CC _ _ _ El Ua). unfold prodr. auto 6. }
      destruct a as [l1 r1|l1 r1|b1 e1|x|x], b as [l2 r2|l2 r2|b2 e2|y|y]; try (injection E as <-; auto; fail);
        try (eapply LEFT; eauto; fail); try (eapply RIGHT; eauto; fail).
      injection E as <-. exists (TC (x * y)%F). split; [now apply unf_c|]. rewrite (CC _ _ _ El Ua), (CC _ _ _ Er Ub). right. left. eauto.
    - intros ta Ua. destruct (nth_error prev b) as [a|] eqn:Eb; [|discriminate]. cbn [obind] in E.
      assert (KEEP : s' = SPow b e -> exists t, unf (prev ++ [s']) (length prev) t /\ powr ta e t).
      { intros ->. exists (TP ta e). split; [|now left]. eapply unf_p; eauto. }
      destruct a as [l1 r1|l1 r1|b1 e1|x|x]; try (injection E as <-; auto; fail).
      + destruct (mul64 wr e e1) as [e2|]; [|discriminate]. injection E as <-.
        destruct (unf_ex prev b1 W) as [t1 U1].
        { destruct (W _ _ Eb) as [R _]. specialize (R b1 (or_introl eq_refl)). apply nth_error_lt in Eb. lia. }
        exists (TP t1 e2). split; [eapply unf_p; eauto|]. right. right. exists t1, e1, e2. split; auto.
        eapply unf_fun; eauto. eapply unf_p; eauto.
      + injection E as <-. exists (TC (ppow x e)). split; [now apply unf_c|]. rewrite (CC _ _ _ Eb Ua). right. left. eauto.
    - injection E as <-. now apply unf_c.
    - injection E as <-. now apply unf_v.
  Qed.

  Lemma optc_unf char2 (c c1 : circuit F) : is_char2 F char2 -> wf c -> optimize_constants false char2 c = Some c1 ->
    wf c1 /\ length c1 = length c /\ forall i t, unf c i t -> exists t', unf c1 i t' /\ orel t t'.
  Proof.
    intros HC. revert c1. induction c as [|s c IH] using rev_ind; intros c1 W E.
    - injection E as <-. split; auto. split; auto. intros i t U. apply unf_lt in U. cbn in U. lia.
    - destruct (wf_init _ _ _ W) as [Wc [Rs _]]. pose proof E as E0. unfold optimize_constants in E. rewrite ofold_app in E.
      change (ofold _ c []) with (optimize_constants false char2 c) in E.
      destruct (optimize_constants false char2 c) as [c0|] eqn:EC; [|discriminate]. destruct (IH c0 Wc eq_refl) as [W0 [L0 H0]].
      cbn [obind ofold] in E. destruct (opt_step false char2 c0 s) as [s'|] eqn:Es; [|discriminate]. cbn [obind] in E. injection E as <-.
      destruct (optimize_constants_ok F false char2 _ _ HC W E0) as [_ [L1 [W1 _]]].
      split; auto. split; auto. intros i t U.
      assert (OLD : forall i, i < length c -> exists t t', unf c i t /\ unf c0 i t' /\ orel t t').
      { intros j Hj. destruct (unf_ex c j Wc Hj) as [u Uu]. destruct (H0 _ _ Uu) as [u' [Uu' O]]. eauto. }
      pose proof (unf_lt _ _ _ U) as Hi. rewrite app_length in Hi. cbn [length] in Hi.
      destruct (Nat.eq_dec i (length c)) as [->|].
      + pose proof (opt_step_unf _ _ _ _ _ W0 Es (length c) (eq_sym L0)) as OS.
        assert (FU : forall u, unf (c ++ [s]) (length c) u -> u = t) by (intros; eapply unf_fun; eauto).
        pose proof (nth_error_app_last c s) as EL.
        destruct s as [l r|l r|b e|v|x]; cbn [refs In] in Rs.
        * destruct (OLD l) as [ta [ta' [A1 [A2 A3]]]]; auto. destruct (OLD r) as [tb [tb' [B1 [B2 B3]]]]; auto.
          destruct (OS ta' tb' A2 B2) as [t' [U' S']]. exists t'. split; auto.
          rewrite <- (FU (TA ta tb)); [eapply orel_a; eauto|]. eapply unf_a; eauto; now apply unf_app.
        * destruct (OLD l) as [ta [ta' [A1 [A2 A3]]]]; auto. destruct (OLD r) as [tb [tb' [B1 [B2 B3]]]]; auto.
          destruct (OS ta' tb' A2 B2) as [t' [U' S']]. exists t'. split; auto.
          rewrite <- (FU (TM ta tb)); [eapply orel_m; eauto|]. eapply unf_m; eauto; now apply unf_app.
        * destruct (OLD b) as [ta [ta' [A1 [A2 A3]]]]; auto.
          destruct (OS ta' A2) as [t' [U' S']]. exists t'. split; auto.
          rewrite <- (FU (TP ta e)); [eapply orel_p; eauto|]. eapply unf_p; eauto; now apply unf_app.
        * exists (TC v). split; auto. rewrite <- (FU (TC v)); [constructor|]. now apply unf_c.
        * exists (TV x). split; auto. rewrite <- (FU (TV x)); [constructor|]. now apply unf_v.
      + destruct (OLD i) as [u [u' [A1 [A2 A3]]]]; [lia|]. exists u'. split; [now apply unf_app|].
        rewrite (unf_fun _ _ _ _ U (unf_app _ [s] _ _ A1)). exact A3.
  Qed.

  (** The expressions at the steps of an optimised circuit come from rewriting constants in the expressions of the circuit. *)
  Theorem optimize_unf char2 (c e : circuit F) : is_char2 F char2 -> c <> [] -> wf c -> optimize false char2 c = Some e ->
    wf e /\ e <> [] /\
    (forall k, k < length e -> exists i t t', i < length c /\ unf c i t /\ unf e k t' /\ orel t t') /\
    (forall t, root c t -> exists t', root e t' /\ orel t t').
  Proof.
    intros HC NE W E. unfold optimize in E. destruct (optimize_constants false char2 c) as [c1|] eqn:E1; [|discriminate]. cbn [obind] in E.
    destruct (optc_unf char2 c c1 HC W E1) as [W1 [L1 H1]].
    destruct (deduplicate_steps c1) as [c2|] eqn:E2; [|discriminate]. cbn [obind] in E. destruct (dedup_unf c1 c2 W1 E2) as [W2 [L2 H2]].
    destruct (compress_unf c2 e) as [W3 [N3 [H3 R3]]]; auto.
    { intros ->. destruct c; [congruence|]. cbn in *. lia. }
    split; auto. split; auto. split.
    - intros k Hk. destruct (H3 k Hk) as [j [u [Hj [A B]]]]. rewrite L2, L1 in Hj. destruct (unf_ex c j W Hj) as [t U].
      destruct (H1 _ _ U) as [t' [U' O]]. rewrite (unf_fun _ _ _ _ A (H2 _ _ U')) in B. exists j, t, t'. auto.
    - intros t R. destruct (H1 _ _ R) as [t' [U' O]]. exists t'. split; auto. apply R3. unfold root. rewrite L2, L1. auto.
  Qed.

  (* ---------------------------------------------------------------- *)
  (** * Degrees *)
  Fixpoint tdeg (t : tree F) : nat :=
    match t with
    | TC _ => 0 | TV _ => 1 | TA a b => Nat.max (tdeg a) (tdeg b) | TM a b => (tdeg a + tdeg b)%nat | TP a e => (tdeg a * N.to_nat e)%nat
    end.
  Lemma step_degree_unf c fuel : forall i t d, step_degree fuel c i = Some d -> unf c i t -> d = tdeg t.
  Proof.
    induction fuel as [|fuel IH]; intros i t d E U; [discriminate|]. cbn [step_degree] in E.
    destruct U as [i v E1|i x E1|i l r ta tb E1 U1 U2|i l r ta tb E1 U1 U2|i b e ta E1 U1]; rewrite E1 in E; cbn [obind] in E; cbn [tdeg].
    - congruence.
    - congruence.
    - destruct (step_degree fuel c l) as [a|] eqn:Ea; [|discriminate]. destruct (step_degree fuel c r) as [b|] eqn:Eb; [|discriminate].
      cbn [obind] in E. injection E as <-. rewrite (IH _ _ _ Ea U1), (IH _ _ _ Eb U2). reflexivity.
    - destruct (step_degree fuel c l) as [a|] eqn:Ea; [|discriminate]. destruct (step_degree fuel c r) as [b|] eqn:Eb; [|discriminate].
      cbn [obind] in E. injection E as <-. rewrite (IH _ _ _ Ea U1), (IH _ _ _ Eb U2). reflexivity.
    - destruct (step_degree fuel c b) as [a|] eqn:Ea; [|discriminate]. cbn [obind] in E. injection E as <-. rewrite (IH _ _ _ Ea U1). reflexivity.
  Qed.
  Lemma degree_unf c t d : degree c = Some d -> root c t -> d = tdeg t.
  Proof. apply step_degree_unf. Qed.
End Tree.
