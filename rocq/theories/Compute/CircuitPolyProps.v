(** C68: a compiled circuit computes what the circuit computes, if shared subexpressions are used in a way the compiler supports; it
    does not in general. *)
Require Import Coq.NArith.NArith Coq.setoid_ring.Ring Coq.Arith.Arith Coq.Lists.List Coq.Bool.Bool Lia.
From Verif Require Import Base.Fld Base.Lists Base.Sums Field.TowerProofs Field.Examples Math.ArithModel Math.ArithProofs Math.ArithProps
  Compute.CircuitPolyModel.
Import ListNotations.
Local Open Scope nat_scope.

(** * Specification of the circuits the compiler supports *)
Section Spec.
  Context {F : field}.
  Variable c : circuit F.

  (** step [t] is used, directly or not, to compute step [o] *)
  Inductive reach : nat -> nat -> Prop :=
  | reach_refl o : reach o o
  | reach_step o s r t : nth_error c o = Some s -> In r (refs s) -> reach r t -> reach o t.

  Definition leaf (t : nat) : Prop := (exists v, nth_error c t = Some (SConst v)) \/ (exists i, nth_error c t = Some (SVar i)).
  (** [t] is a computed term to which a product is added *)
  Definition accumulator (t : nat) : Prop :=
    (exists p r a b, nth_error c p = Some (SAdd t r) /\ nth_error c r = Some (SMul a b)) /\ ~ leaf t.
  Definition odd_power (t : nat) : Prop := exists b e, nth_error c t = Some (SPow b e) /\ N.testbit e 0 = true /\ e <> 1%N.
  Definition fragile (t : nat) : Prop := accumulator t \/ odd_power t.

  (** the value of [a] is needed while [b] is computed: the operands of a step, except that a product that is added to a computed
      term is not computed as a whole *)
  Inductive together (a : nat) : nat -> Prop :=
  | tog_mul p b : nth_error c p = Some (SMul a b) -> together a b
  | tog_add p b : nth_error c p = Some (SAdd a b) -> leaf a \/ (forall x y, nth_error c b <> Some (SMul x y)) -> together a b
  | tog_acc p r x y b : nth_error c p = Some (SAdd a r) -> ~ leaf a -> nth_error c r = Some (SMul x y) -> b = x \/ b = y -> together a b.

  (** Accumulators and odd powers are not shared: none is reached from two steps that are needed together.  Exponents are nonzero,
      and no accumulator is a first power. *)
  Record supported : Prop := {
    sup_shared : forall a b t, together a b -> fragile t -> reach a t -> reach b t -> False;
    sup_exp : forall p b e, nth_error c p = Some (SPow b e) -> e <> 0%N;
    sup_first : forall t b, accumulator t -> nth_error c t <> Some (SPow b 1%N) }.
End Spec.

Lemma log2_lt e : e <> 0%N -> (e < 2 ^ N.of_nat (S (N.to_nat (N.log2 e))))%N.
Proof.
  intros H. rewrite Nat2N.inj_succ, N2Nat.id. apply N.log2_spec. lia.
Qed.

(** * The conversion *)
Section Convert.
  Context {F : field}.
  Variable c : circuit F.
  Hypothesis W : wf c.
  Hypothesis Sup : supported c.

  Section Val.
    Variable V : Type.
    Variable add mul : V -> V -> V.
    Variable cst : F -> V.
    Variable query : list V.
    Definition pow_bits (x : V) (e : N) (bits : list nat) (acc : V) : V :=
      fold_left (fun acc i => let acc := mul acc acc in if N.testbit e (N.of_nat i) then mul acc x else acc) bits acc.
    Definition vpow (x : V) (e : N) : V := pow_bits x e (rev (seq 0 (N.to_nat (N.log2 e)))) x.

    (** [val o] is the value of step [o] *)
    Variable val : nat -> V.
    Definition is_val (o : nat) (s : step F) : Prop :=
      match s with
      | SConst v => val o = cst v
      | SVar i => nth_error query i = Some (val o)
      | SAdd l r => val o = add (val l) (val r)
      | SMul l r => val o = mul (val l) (val r)
      | SPow b e => val o = vpow (val b) e
      end.
    Hypothesis HV : forall o s, nth_error c o = Some s -> is_val o s.

    Notation arg_value := (arg_value F V cst query).
    Notation run := (run F V add mul cst query).
    Notation run_step := (run_step F V add mul cst query).

    Record good (st : cstate F) (sl : list (option V)) : Prop := {
      g_run : run (fst st) = Some sl;
      g_len : length sl = length (fst st);
      g_inv : forall o s, c2o (snd st) s = Some o -> o2c (snd st) o = Some s;
      g_map : forall o s, o2c (snd st) o = Some s ->
        ~ leaf c o /\ s < length (fst st) /\ c2o (snd st) s = Some o /\ (~ fragile c o -> nth_error sl s = Some (Some (val o))) }.

    Lemma arg_frame sl sl' a v : (forall s, s < length sl -> nth_error sl' s = nth_error sl s) ->
      arg_value sl a = Some v -> arg_value sl' a = Some v.
    Proof.
      intros H. destruct a as [i|s|x]; cbn [CircuitPolyModel.arg_value]; auto.
      destruct (nth_error sl s) as [w|] eqn:E; [|discriminate]. rewrite H by (apply nth_error_lt in E; lia). now rewrite E.
    Qed.
    Lemma run_app R x sl sl' : run R = Some sl -> run_step sl x = Some sl' -> run (R ++ [x]) = Some sl'.
    Proof. intros E H. unfold CircuitPolyModel.run in *. rewrite ofold_app, E. cbn [obind ofold]. now rewrite H. Qed.

    Lemma register_neq m o s t : t <> o -> o2c (register m o s) t = o2c m t.
    Proof. intros H. unfold register, set. cbn [o2c]. now rewrite (proj2 (Nat.eqb_neq t o) H). Qed.

    (** a new slot that holds the value of [o], or that of a fragile step *)
    Lemma good_push R m sl x v o : good (R, m) sl -> run_step sl x = Some (sl ++ [Some v]) -> o2c m o = None ->
      ~ leaf c o -> (~ fragile c o -> v = val o) ->
      good (R ++ [x], register m o (length R)) (sl ++ [Some v]).
    Proof.
      intros [G1 G2 GI G3] Hx Ho Hl Hv. cbn [fst snd] in *. split; cbn [fst snd].
      - eapply run_app; eauto.
      - rewrite !app_length. cbn. lia.
      - intros o' s H. unfold register, set in H |- *. cbn [o2c c2o] in *. destruct (Nat.eqb_spec s (length R)) as [Es|N].
        + injection H as <-. rewrite Nat.eqb_refl. now f_equal.
        + apply GI in H. destruct (Nat.eqb_spec o' o) as [->|N']; [congruence|auto].
      - intros o' s H. rewrite app_length. cbn [length]. unfold register, set in *. cbn [o2c c2o] in *.
        destruct (Nat.eqb_spec o' o) as [->|N].
        + injection H as <-. rewrite Nat.eqb_refl. split; [auto|]. split; [lia|]. split; [auto|]. intros Hf.
          rewrite nth_error_app2 by lia. rewrite G2, Nat.sub_diag. cbn. now rewrite (Hv Hf).
        + destruct (G3 o' s H) as [A [B [C D]]]. split; [auto|]. split; [lia|].
          rewrite (proj2 (Nat.eqb_neq s (length R))) by lia. split; [auto|]. intros Hf. rewrite nth_error_app1 by lia. auto.
    Qed.
    (** a new slot that is not registered *)
    Lemma good_skip R m sl x v : good (R, m) sl -> run_step sl x = Some (sl ++ [Some v]) -> good (R ++ [x], m) (sl ++ [Some v]).
    Proof.
      intros [G1 G2 GI G3] Hx. cbn [fst snd] in *. split; cbn [fst snd].
      - eapply run_app; eauto.
      - rewrite !app_length. cbn. lia.
      - exact GI.
      - intros o' s H. rewrite app_length. cbn [length]. destruct (G3 o' s H) as [A [B [C D]]]. split; [auto|]. split; [lia|].
        split; [auto|]. intros Hf. rewrite nth_error_app1 by lia. auto.
    Qed.

    Lemma last_slot (sl : list (option V)) v : arg_value (sl ++ [Some v]) (ASlot (length sl)) = Some v.
    Proof. cbn [CircuitPolyModel.arg_value]. rewrite nth_error_app2, Nat.sub_diag by lia. reflexivity. Qed.
    Lemma app_frame (sl : list (option V)) x s : s < length sl -> nth_error (sl ++ [x]) s = nth_error sl s.
    Proof. intros H. now rewrite nth_error_app1. Qed.

    (** the loop of a power *)
    Lemma pow_loop_ok o b e v : nth_error c o = Some (SPow b e) -> forall bits R m sl acc base vb,
      good (R, m) sl -> o2c m o = None -> NoDup bits ->
      arg_value sl acc = Some v -> arg_value sl base = Some vb ->
      (In 0 bits -> last bits 0 = 0) -> (In 0 bits -> ~ fragile c o -> pow_bits vb e bits v = val o) -> (In 0 bits -> e <> 1%N) ->
      exists sl', let r := pow_loop o e base bits acc (R, m) in
        good (snd r) sl' /\ length R <= length (fst (snd r)) /\ (forall s, s < length R -> nth_error sl' s = nth_error sl s) /\
        (forall t, t <> o -> o2c (snd (snd r)) t = o2c m t) /\ arg_value sl' (fst r) = Some (pow_bits vb e bits v) /\
        (bits <> [] -> exists s, fst r = ASlot s /\ length R <= s).
    Proof.
      intros Hc. assert (NL : ~ leaf c o) by (intros [[? E]|[? E]]; congruence).
      intros bits. revert v. induction bits as [|i bits IH]; intros v R m sl acc base vb G Ho ND Ha Hb HL Hv He.
      - exists sl. cbn [pow_loop fst snd pow_bits fold_left]. split; [auto|]. split; [lia|]. split; [auto|]. split; [auto|]. split; [auto|]. congruence.
      - cbn [pow_loop]. set (m1 := if i =? 0 then register m o (length R) else m).
        assert (E1 : run_step sl (CSquare acc) = Some (sl ++ [Some (mul v v)])).
        { cbn [CircuitPolyModel.run_step]. rewrite Ha. reflexivity. }
        pose proof (g_len _ _ G) as GL. cbn [fst] in GL.
        assert (Hb0 : i = 0 -> bits = []).
        { intros ->. destruct bits as [|j bits]; auto. exfalso. specialize (HL (or_introl eq_refl)).
          apply NoDup_cons_iff in ND. apply (proj1 ND). rewrite <- HL at 1.
          assert (NB : j :: bits <> []) by discriminate. change (last (0 :: j :: bits) 0) with (last (j :: bits) 0). revert NB. generalize (j :: bits) as l0. intros l0 NB.
          rewrite (app_removelast_last 0 NB) at 2. apply in_or_app. right. now left. }
        assert (G1 : good (R ++ [CSquare acc], m1) (sl ++ [Some (mul v v)])).
        { unfold m1. destruct (Nat.eqb_spec i 0) as [->|Ni]; [|now apply good_skip].
          apply good_push; auto. intros Hf. specialize (Hb0 eq_refl). subst bits. specialize (Hv (or_introl eq_refl) Hf).
          unfold pow_bits in Hv. cbn [fold_left] in Hv. change (N.of_nat 0) with 0%N in Hv. destruct (N.testbit e 0) eqn:Et; auto. exfalso. apply Hf. right.
          exists b, e. split; [auto|]. split; [auto|]. apply He. now left. }
        assert (Ho1 : forall t, t <> o -> o2c m1 t = o2c m t).
        { intros t Ht. unfold m1. destruct (i =? 0); auto. now apply register_neq. }
        assert (Ho2 : bits <> [] -> o2c m1 o = None).
        { intros NB. unfold m1. destruct (Nat.eqb_spec i 0) as [->|Ni]; auto. now specialize (Hb0 eq_refl). }
        assert (HL' : In 0 bits -> last bits 0 = 0).
        { intros H0. specialize (HL (or_intror H0)). destruct bits as [|j bits]; [destruct H0|]. exact HL. }
        apply NoDup_cons_iff in ND. destruct ND as [ND0 ND].
        rewrite !app_length. cbn [length]. replace (length R + 1 - 1) with (length R) by lia. replace (length R + 1 + 1 - 1) with (S (length R)) by lia.
        assert (HA : arg_value (sl ++ [Some (mul v v)]) (ASlot (length R)) = Some (mul v v)) by (rewrite <- GL; apply last_slot).
        assert (HB : arg_value (sl ++ [Some (mul v v)]) base = Some vb).
        { refine (arg_frame _ _ _ _ _ _); [|eassumption]. intros s Hs. now apply app_frame. }
        destruct (N.testbit e (N.of_nat i)) eqn:Et.
        + assert (E2 : run_step (sl ++ [Some (mul v v)]) (CMul (ASlot (length R)) base) = Some ((sl ++ [Some (mul v v)]) ++ [Some (mul (mul v v) vb)])).
          { cbn [CircuitPolyModel.run_step]. rewrite HA, HB. reflexivity. }
          pose proof (good_skip _ _ _ _ _ G1 E2) as G2.
          assert (L2 : length (sl ++ [Some (mul v v)]) = S (length R)) by (rewrite app_length; cbn; lia).
          assert (HA2 : arg_value ((sl ++ [Some (mul v v)]) ++ [Some (mul (mul v v) vb)]) (ASlot (S (length R))) = Some (mul (mul v v) vb)).
          { rewrite <- L2. apply last_slot. }
          assert (HB2 : arg_value ((sl ++ [Some (mul v v)]) ++ [Some (mul (mul v v) vb)]) base = Some vb).
          { refine (arg_frame _ _ _ _ _ _); [|eassumption]. intros s Hs. now apply app_frame. }
          destruct bits as [|j bits].
          * exists ((sl ++ [Some (mul v v)]) ++ [Some (mul (mul v v) vb)]). cbn [pow_loop fst snd]. split; [exact G2|].
            split; [rewrite !app_length; cbn; lia|]. split; [intros s Hs; rewrite !app_frame; auto; rewrite ?app_length; lia|]. split; [auto|].
            split; [unfold pow_bits; cbn [fold_left]; rewrite Et; exact HA2|]. intros _. exists (S (length R)). split; [auto|lia].
          * destruct (IH (mul (mul v v) vb) _ m1 _ (ASlot (S (length R))) base vb G2 (Ho2 ltac:(discriminate)) ND HA2 HB2 HL') as [sl' [A1 [A2 [A3 [A4 [A5 A6]]]]]].
            { intros H0 Hf. specialize (Hv (or_intror H0) Hf). unfold pow_bits in *. cbn [fold_left] in Hv. rewrite Et in Hv. exact Hv. }
            { intros H0. apply He. now right. }
            exists sl'. cbv zeta. split; [exact A1|]. rewrite !app_length in A2. cbn [length] in A2. split; [lia|].
            split. { intros s Hs. rewrite A3 by (rewrite !app_length; lia). rewrite !app_frame; auto; rewrite ?app_length; lia. }
            split. { intros t Ht. rewrite A4 by auto. now apply Ho1. }
            split. { rewrite A5. unfold pow_bits. cbn [fold_left]. now rewrite Et. }
            intros _. destruct (A6 ltac:(discriminate)) as [s [Es Hs]]. exists s. split; [exact Es|]. rewrite !app_length in Hs. lia.
        + destruct bits as [|j bits].
          * exists (sl ++ [Some (mul v v)]). cbn [pow_loop fst snd]. split; [exact G1|].
            split; [rewrite !app_length; cbn; lia|]. split; [intros s Hs; rewrite !app_frame; auto; lia|]. split; [auto|].
            split; [unfold pow_bits; cbn [fold_left]; rewrite Et; exact HA|]. intros _. exists (length R). split; [auto|lia].
          * destruct (IH (mul v v) _ m1 _ (ASlot (length R)) base vb G1 (Ho2 ltac:(discriminate)) ND HA HB HL') as [sl' [A1 [A2 [A3 [A4 [A5 A6]]]]]].
            { intros H0 Hf. specialize (Hv (or_intror H0) Hf). unfold pow_bits in *. cbn [fold_left] in Hv. rewrite Et in Hv. exact Hv. }
            { intros H0. apply He. now right. }
            exists sl'. cbv zeta. split; [exact A1|]. rewrite !app_length in A2. cbn [length] in A2. split; [lia|].
            split. { intros s Hs. rewrite A3 by (rewrite !app_length; lia). rewrite !app_frame; auto; lia. }
            split. { intros t Ht. rewrite A4 by auto. now apply Ho1. }
            split. { rewrite A5. unfold pow_bits. cbn [fold_left]. now rewrite Et. }
            intros _. destruct (A6 ltac:(discriminate)) as [s [Es Hs]]. exists s. split; [exact Es|]. rewrite !app_length in Hs. lia.
    Qed.

    Definition first_power (o : nat) : Prop := exists b, nth_error c o = Some (SPow b 1%N).
    Lemma reach_le o t : reach c o t -> t <= o.
    Proof.
      induction 1 as [|o s r t E I _ IH]; [lia|]. destruct (W o s E) as [H _]. specialize (H r I). lia.
    Qed.
    Lemma reach_trans o r t : reach c o r -> reach c r t -> reach c o t.
    Proof. induction 1; auto. intros. eapply reach_step; eauto. Qed.

    (** what a conversion guarantees *)
    Record converted (o : nat) (st : cstate F) (sl : list (option V)) (a : arg F) (st' : cstate F) (sl' : list (option V)) : Prop := {
      cv_good : good st' sl';
      cv_len : length (fst st) <= length (fst st');
      cv_frame : forall s, s < length (fst st) -> nth_error sl' s = nth_error sl s;
      cv_map : forall t, ~ reach c o t -> o2c (snd st') t = o2c (snd st) t;
      cv_value : arg_value sl' a = Some (val o);
      cv_new : forall s, o2c (snd st) o = None -> ~ first_power o -> a = ASlot s -> length (fst st) <= s;
      cv_leaf : leaf c o -> forall s, a <> ASlot s;
      cv_slot : ~ leaf c o -> ~ first_power o -> exists s, a = ASlot s }.

    (** one operand after another *)
    Lemma untouched a b st a0 sl st' sl' : together c a b -> converted a st sl a0 st' sl' ->
      (forall t, fragile c t -> reach c b t -> o2c (snd st) t = None) -> forall t, fragile c t -> reach c b t -> o2c (snd st') t = None.
    Proof.
      intros T CV H t Ft Rt. rewrite (cv_map _ _ _ _ _ _ CV); auto. intros Ra. exact (sup_shared _ Sup a b t T Ft Ra Rt).
    Qed.
    Lemma leaf_dec o : leaf c o \/ ~ leaf c o.
    Proof. unfold leaf. destruct (nth_error c o) as [[]|] eqn:E; try (right; intros [[? H]|[? H]]; discriminate H); left; eauto. Qed.

    Lemma conv_trans o st sl a st1 sl1 o' a' st2 sl2 : converted o st sl a st1 sl1 -> converted o' st1 sl1 a' st2 sl2 ->
      length (fst st) <= length (fst st2) /\ (forall s, s < length (fst st) -> nth_error sl2 s = nth_error sl s) /\
      arg_value sl2 a = Some (val o) /\ (forall t, ~ reach c o t -> ~ reach c o' t -> o2c (snd st2) t = o2c (snd st) t).
    Proof.
      intros C1 C2. pose proof (cv_len _ _ _ _ _ _ C1). pose proof (cv_len _ _ _ _ _ _ C2). split; [lia|]. split; [|split].
      - intros s Hs. rewrite (cv_frame _ _ _ _ _ _ C2) by lia. now apply (cv_frame _ _ _ _ _ _ C1).
      - refine (arg_frame _ _ _ _ _ (cv_value _ _ _ _ _ _ C1)). intros s Hs. apply (cv_frame _ _ _ _ _ _ C2).
        now rewrite <- (g_len _ _ (cv_good _ _ _ _ _ _ C1)).
      - intros t H1 H2. rewrite (cv_map _ _ _ _ _ _ C2) by auto. now apply (cv_map _ _ _ _ _ _ C1).
    Qed.

    (** the result of an operation on two converted operands *)
    Lemma binary_ok o s l r x f st sl a st1 sl1 b st2 sl2 :
      nth_error c o = Some s -> refs s = [l; r] -> ~ leaf c o -> ~ first_power o -> o2c (snd st) o = None ->
      converted l st sl a st1 sl1 -> converted r st1 sl1 b st2 sl2 -> val o = f (val l) (val r) ->
      (forall slots va vb, arg_value slots a = Some va -> arg_value slots b = Some vb -> run_step slots x = Some (slots ++ [Some (f va vb)])) ->
      exists sl', converted o st sl (ASlot (length (fst st2))) (fst st2 ++ [x], register (snd st2) o (length (fst st2))) sl'.
    Proof.
      intros E R NL NP Ho C1 C2 Hval Hx. destruct (conv_trans _ _ _ _ _ _ _ _ _ _ C1 C2) as [T1 [T2 [T3 T4]]].
      pose proof (cv_good _ _ _ _ _ _ C2) as G. pose proof (g_len _ _ G) as GL. pose proof (cv_value _ _ _ _ _ _ C2) as Vb.
      specialize (Hx _ _ _ T3 Vb). rewrite <- Hval in Hx.
      assert (Rl : forall t, reach c l t -> reach c o t) by (intros t Ht; eapply reach_step; eauto; rewrite R; cbn; auto).
      assert (Rr : forall t, reach c r t -> reach c o t) by (intros t Ht; eapply reach_step; eauto; rewrite R; cbn; auto).
      assert (Il : l < o) by (apply (proj1 (W o s E)); rewrite R; cbn; auto).
      assert (Ir : r < o) by (apply (proj1 (W o s E)); rewrite R; cbn; auto).
      exists (sl2 ++ [Some (val o)]). split; cbn [fst snd].
      - apply good_push; auto. { destruct st2; exact G. }
        rewrite T4, Ho; auto; intros H; apply reach_le in H; lia.
      - rewrite app_length. cbn. lia.
      - intros s' Hs. rewrite app_frame by lia. auto.
      - intros t Ht. rewrite register_neq by (intros ->; apply Ht; apply reach_refl). apply T4; auto.
      - rewrite <- GL. apply last_slot.
      - intros s' _ _ H. injection H as <-. lia.
      - intros H. now apply NL in H.
      - eauto.
    Qed.

    Lemma convert_ok : forall fuel o st sl, o < fuel -> o < length c -> good st sl ->
      (forall t, fragile c t -> reach c o t -> o2c (snd st) t = None) ->
      exists a st' sl', convert_step fuel c o st = Some (a, st') /\ converted o st sl a st' sl'.
    Proof.
      induction fuel as [|fuel IH]; [lia|]. intros o st sl Hf Hl G HF. cbn [convert_step].
      destruct (o2c (snd st) o) as [s|] eqn:Eo.
      { destruct (g_map _ _ G o s Eo) as [A [B [C D]]].
        assert (NF : ~ fragile c o) by (intros H; rewrite (HF o H (reach_refl _ _)) in Eo; discriminate).
        exists (ASlot s), st, sl. split; [reflexivity|]. split.
        - exact G.
        - lia.
        - auto.
        - auto.
        - cbn [CircuitPolyModel.arg_value]. now rewrite (D NF).
        - congruence.
        - intros H. now apply A in H.
        - eauto. }
      destruct (nth_error c o) as [st0|] eqn:Ec; [|apply nth_error_None in Ec; lia].
      cbn [obind]. pose proof (HV o st0 Ec) as HVo. destruct (W o st0 Ec) as [Wr _].
      assert (sub : forall r t, In r (refs st0) -> reach c r t -> reach c o t) by (intros; eapply reach_step; eauto).
      assert (lt : forall r, In r (refs st0) -> r < fuel /\ r < length c) by (intros r I; specialize (Wr r I); lia).
      destruct st0 as [l r|l r|b e|v|i]; cbn [is_val refs] in *.
      - (* addition *)
        assert (NL : ~ leaf c o) by (intros [[? E]|[? E]]; congruence).
        assert (NP : ~ first_power o) by (intros [? E]; congruence).
        assert (Il : In l [l; r]) by (cbn; auto). assert (Ir : In r [l; r]) by (cbn; auto).
        destruct (lt l Il) as [L1 L2]. destruct (lt r Ir) as [L3 L4].
        destruct (IH l st sl L1 L2 G) as [a [st1 [sl1 [E1 C1]]]]; [intros t Ft Rt; apply HF; eauto|].
        rewrite E1. cbn [obind]. destruct (nth_error c r) as [rs|] eqn:Er; [|apply nth_error_None in Er; lia]. cbn [obind].
        assert (plain : leaf c l \/ (forall x y, nth_error c r <> Some (SMul x y)) -> exists a' st' sl', (do x <- convert_step fuel c r st1;
            let (right, st2) := x in Some (ASlot (length (fst st2)), (fst st2 ++ [CAdd a right], register (snd st2) o (length (fst st2))))) = Some (a', st') /\
            converted o st sl a' st' sl').
        { intros PL. destruct (IH r st1 sl1 L3 L4 (cv_good _ _ _ _ _ _ C1)) as [b [st2 [sl2 [E2 C2]]]].
          { apply (untouched l r _ _ _ _ _ (tog_add _ _ o _ Ec PL) C1). eauto. }
          rewrite E2. cbn [obind].
          destruct (binary_ok o (SAdd l r) l r (CAdd a b) add _ _ _ _ _ _ _ _ Ec eq_refl NL NP Eo C1 C2 HVo) as [sl' C].
          { intros slots va vb Ea Eb. cbn [CircuitPolyModel.run_step]. now rewrite Ea, Eb. }
          eauto. }
        assert (PL : (forall ml mr, rs = SMul ml mr -> leaf c l) -> leaf c l \/ (forall x y, nth_error c r <> Some (SMul x y))).
        { intros H. destruct rs as [|ml mr|b0 e0|v0|i0]; try (right; intros; rewrite Er; discriminate). left. eauto. }
        assert (SL : (forall t, a <> ASlot t) -> forall ml mr, rs = SMul ml mr -> leaf c l).
        { intros NS ml mr ->. destruct (leaf_dec l) as [|NLl]; auto. exfalso.
          destruct (cv_slot _ _ _ _ _ _ C1 NLl) as [t Ht]; [|now apply (NS t)].
          intros [b0 H]. refine (sup_first _ Sup l b0 _ H). split; auto. exists o, r, ml, mr. auto. }
        destruct a as [ai|t|av]; try (apply plain, PL, SL; discriminate). destruct rs as [|ml mr|b0 e0|v0|i0]; try (apply plain, PL; discriminate). clear plain PL SL.
        assert (Nl : ~ leaf c l) by (intros H; exact (cv_leaf _ _ _ _ _ _ C1 H t eq_refl)).
        assert (Al : accumulator c l) by (split; auto; exists o, r, ml, mr; auto).
        assert (Np : ~ first_power l) by (intros [b0 H]; exact (sup_first _ Sup l b0 Al H)).
        assert (Ol : o2c (snd st) l = None) by (apply HF; [now left|]; exact (sub l l Il (reach_refl _ _))).
        pose proof (cv_new _ _ _ _ _ _ C1 t Ol Np eq_refl) as Tn.
        pose proof (HV r _ Er) as HVr. cbn [is_val] in HVr. destruct (W r _ Er) as [Wm _]. cbn [refs] in Wm.
        assert (Im1 : ml < r) by (apply Wm; cbn; auto). assert (Im2 : mr < r) by (apply Wm; cbn; auto).
        destruct (IH ml st1 sl1 ltac:(lia) ltac:(lia) (cv_good _ _ _ _ _ _ C1)) as [b1 [st2 [sl2 [E2 C2]]]].
        { apply (untouched l ml _ _ _ _ _ (tog_acc _ _ o r ml mr ml Ec Nl Er (or_introl eq_refl)) C1).
          intros t0 F0 R0. apply HF; auto. apply (sub r); auto. apply (reach_step c r _ ml t0 Er); cbn; auto. }
        rewrite E2. cbn [obind].
        destruct (IH mr st2 sl2 ltac:(lia) ltac:(lia) (cv_good _ _ _ _ _ _ C2)) as [b2 [st3 [sl3 [E3 C3]]]].
        { apply (untouched ml mr _ _ _ _ _ (tog_mul _ _ r _ Er) C2).
          apply (untouched l mr _ _ _ _ _ (tog_acc _ _ o r ml mr mr Ec Nl Er (or_intror eq_refl)) C1).
          intros t0 F0 R0. apply HF; auto. apply (sub r); auto. apply (reach_step c r _ mr t0 Er); cbn; auto. }
        rewrite E3. cbn [obind].
        destruct (conv_trans _ _ _ _ _ _ _ _ _ _ C1 C2) as [T1 [T2 [T3 T4]]].
        destruct (conv_trans _ _ _ _ _ _ _ _ _ _ C2 C3) as [X1 [X2 [X3 X4]]].
        pose proof (cv_good _ _ _ _ _ _ C3) as G3. pose proof (g_len _ _ G3) as GL3.
        pose proof (cv_value _ _ _ _ _ _ C3) as V3. pose proof (cv_value _ _ _ _ _ _ C1) as V1. pose proof (cv_len _ _ _ _ _ _ C1) as Ln1.
        assert (Ht : nth_error sl3 t = Some (Some (val l)) /\ t < length (fst st1)).
        { cbn [CircuitPolyModel.arg_value] in V1. destruct (nth_error sl1 t) as [w|] eqn:Ew; [|discriminate].
          pose proof (nth_error_lt _ _ _ Ew) as Lt. rewrite (g_len _ _ (cv_good _ _ _ _ _ _ C1)) in Lt. split; [|exact Lt].
          rewrite X2, Ew by exact Lt. destruct w as [w|]; congruence. }
        destruct Ht as [Ht Lt].
        assert (Hrun : run_step sl3 (CAddMul t b1 b2) = Some (upd sl3 t (Some (val o)) ++ [None])).
        { cbn [CircuitPolyModel.run_step]. rewrite X3, V3. cbn [obind CircuitPolyModel.arg_value]. rewrite Ht. cbn [obind].
          rewrite HVo, HVr. reflexivity. }
        set (m1 := clear_step (snd st3) t).
        assert (M1 : forall o' s', o2c m1 o' = Some s' -> o2c (snd st3) o' = Some s' /\ s' <> t /\ c2o m1 s' = c2o (snd st3) s').
        { intros o' s' H. unfold m1, clear_step in *. destruct (c2o (snd st3) t) as [w|] eqn:Ew; cbn [o2c c2o] in *.
          - unfold set in *. destruct (Nat.eqb_spec o' w) as [->|Nw]; [discriminate|]. split; [auto|].
            assert (s' <> t). { intros ->. destruct (g_map _ _ G3 o' t H) as [_ [_ [C _]]]. congruence. }
            split; auto. now rewrite (proj2 (Nat.eqb_neq s' t)).
          - split; auto. split; auto. intros ->. destruct (g_map _ _ G3 o' t H) as [_ [_ [C _]]]. congruence. }
        assert (M2 : forall t0, ~ reach c o t0 -> o2c m1 t0 = o2c (snd st) t0).
        { intros t0 R0.
          assert (R1 : ~ reach c l t0) by (intros H; apply R0; exact (sub l _ Il H)).
          assert (R2 : ~ reach c ml t0) by (intros H; apply R0; apply (sub r); auto; apply (reach_step c r _ ml t0 Er); cbn; auto).
          assert (R3 : ~ reach c mr t0) by (intros H; apply R0; apply (sub r); auto; apply (reach_step c r _ mr t0 Er); cbn; auto).
          assert (Y : o2c (snd st3) t0 = o2c (snd st) t0).
          { rewrite (cv_map _ _ _ _ _ _ C3), (cv_map _ _ _ _ _ _ C2), (cv_map _ _ _ _ _ _ C1); auto. }
          rewrite <- Y. unfold m1, clear_step. destruct (c2o (snd st3) t) as [w|] eqn:Ew; auto. cbn [o2c]. unfold set.
          destruct (Nat.eqb_spec t0 w) as [->|Nw]; auto. rewrite Y.
          (* the owner of slot t existed before: then the slot is old *)
          apply (g_inv _ _ G3) in Ew. rewrite Y in Ew. destruct (g_map _ _ G w t Ew) as [_ [B0 _]]. lia. }
        pose proof (Wr l Il) as Wl. pose proof (Wr r Ir) as Wr'.
        assert (Oo : o2c (snd st3) o = None).
        { rewrite (cv_map _ _ _ _ _ _ C3), (cv_map _ _ _ _ _ _ C2), (cv_map _ _ _ _ _ _ C1); auto; intros H; apply reach_le in H; lia. }
        pose proof (cv_len _ _ _ _ _ _ C2) as Ln2. pose proof (cv_len _ _ _ _ _ _ C3) as Ln3.
        exists (ASlot t), (fst st3 ++ [CAddMul t b1 b2], register m1 o t), (upd sl3 t (Some (val o)) ++ [None]). split; [reflexivity|]. split; cbn [fst snd].
        + split; cbn [fst snd].
          * eapply run_app; [exact (g_run _ _ G3)|exact Hrun].
          * rewrite !app_length, upd_length. cbn. lia.
          * intros o' s' H. unfold register, set in H |- *. cbn [o2c c2o] in *. destruct (Nat.eqb_spec s' t) as [Es|N].
            -- injection H as <-. rewrite Nat.eqb_refl. now f_equal.
            -- assert (H' : c2o (snd st3) s' = Some o').
               { revert H. unfold m1, clear_step. destruct (c2o (snd st3) t); auto. cbn [c2o]. unfold set. now rewrite (proj2 (Nat.eqb_neq s' t) N). }
               apply (g_inv _ _ G3) in H'. destruct (Nat.eqb_spec o' o) as [->|N']; [congruence|].
               unfold m1, clear_step. destruct (c2o (snd st3) t) as [w|] eqn:Ew; auto. cbn [o2c]. unfold set.
               destruct (Nat.eqb_spec o' w) as [->|N2]; auto. apply (g_inv _ _ G3) in Ew. congruence.
          * intros o' s' H. unfold register, set in H |- *. cbn [o2c c2o] in *. rewrite app_length. cbn [length].
            destruct (Nat.eqb_spec o' o) as [->|N].
            -- injection H as <-. rewrite Nat.eqb_refl. split; [exact NL|]. split; [lia|]. split; [reflexivity|]. intros _.
               rewrite app_frame by (rewrite upd_length; lia). apply nth_error_upd_eq. lia.
            -- destruct (M1 o' s' H) as [Q1 [Q2 Q3]]. destruct (g_map _ _ G3 o' s' Q1) as [A [B [C D]]].
               rewrite (proj2 (Nat.eqb_neq s' t) Q2). split; [auto|]. split; [lia|]. split; [congruence|]. intros Hn.
               rewrite app_frame by (rewrite upd_length; lia). rewrite nth_error_upd_ne by auto. auto.
        + rewrite app_length. cbn. lia.
        + intros s' Hs. rewrite app_frame by (rewrite upd_length; lia). rewrite nth_error_upd_ne by lia.
          rewrite (cv_frame _ _ _ _ _ _ C3) by lia. apply T2. exact Hs.
        + intros t0 R0. rewrite register_neq by (intros ->; apply R0; apply reach_refl). now apply M2.
        + cbn [CircuitPolyModel.arg_value]. rewrite app_frame by (rewrite upd_length; lia). rewrite nth_error_upd_eq by lia. reflexivity.
        + intros s' _ _ H. injection H as <-. exact Tn.
        + intros H. now apply NL in H.
        + eauto.
      - (* multiplication *)
        assert (NL : ~ leaf c o) by (intros [[? E]|[? E]]; congruence).
        assert (NP : ~ first_power o) by (intros [? E]; congruence).
        assert (Il : In l [l; r]) by (cbn; auto). assert (Ir : In r [l; r]) by (cbn; auto).
        destruct (lt l Il) as [L1 L2]. destruct (lt r Ir) as [L3 L4].
        destruct (IH l st sl L1 L2 G) as [a [st1 [sl1 [E1 C1]]]]; [intros t Ft Rt; apply HF; eauto|].
        rewrite E1. cbn [obind].
        assert (U1 : forall t, fragile c t -> reach c r t -> o2c (snd st1) t = None).
        { apply (untouched l r _ _ _ _ _ (tog_mul _ _ o _ Ec) C1). eauto. }
        destruct (IH r st1 sl1 L3 L4 (cv_good _ _ _ _ _ _ C1) U1) as [b [st2 [sl2 [E2 C2]]]]. rewrite E2. cbn [obind].
        destruct (binary_ok o (SMul l r) l r (CMul a b) mul _ _ _ _ _ _ _ _ Ec eq_refl NL NP Eo C1 C2 HVo) as [sl' C].
        { intros slots va vb Ea Eb. cbn [CircuitPolyModel.run_step]. now rewrite Ea, Eb. }
        eauto.
      - (* power *)
        assert (NL : ~ leaf c o) by (intros [[? E]|[? E]]; congruence).
        assert (Ib : In b [b]) by (cbn; auto). destruct (lt b Ib) as [L1 L2].
        destruct (IH b st sl L1 L2 G) as [a [st1 [sl1 [E1 C1]]]]; [intros t Ft Rt; apply HF; eauto|].
        rewrite E1. cbn [obind]. pose proof (sup_exp _ Sup o b e Ec) as He. rewrite (proj2 (N.eqb_neq e 0) He).
        assert (Ob : o2c (snd st1) o = None) by (rewrite (cv_map _ _ _ _ _ _ C1); auto; intros H; apply reach_le in H; specialize (Wr b Ib); lia).
        destruct st1 as [R1 m1]. cbn [fst snd] in *. set (bits := rev (seq 0 (N.to_nat (N.log2 e)))).
        pose proof (cv_value _ _ _ _ _ _ C1) as V1.
        assert (B0 : In 0 bits -> e <> 1%N) by (intros H ->; destruct H).
        destruct (pow_loop_ok o b e (val b) Ec bits R1 m1 sl1 a a (val b) (cv_good _ _ _ _ _ _ C1) Ob) as [sl' [A1 [A2 [A3 [A4 [A5 A6]]]]]]; auto.
        { apply NoDup_rev, seq_NoDup. }
        { intros _. unfold bits. destruct (N.to_nat (N.log2 e)) as [|k]; auto. cbn [seq rev]. now rewrite last_last. }
        destruct (pow_loop o e a bits a (R1, m1)) as [a' st'] eqn:Ep. cbn [fst snd] in *.
        pose proof (cv_len _ _ _ _ _ _ C1) as Ln1. cbn [fst] in Ln1.
        exists a', st', sl'. split; [reflexivity|]. split.
        + exact A1.
        + lia.
        + intros s Hs. rewrite A3 by lia. now apply (cv_frame _ _ _ _ _ _ C1).
        + intros t Ht. rewrite A4 by (intros ->; apply Ht; apply reach_refl). apply (cv_map _ _ _ _ _ _ C1). intros H. apply Ht. eauto.
        + rewrite A5. unfold is_val in HVo. rewrite HVo. reflexivity.
        + intros s _ Hp ->. destruct A6 as [s' [Es Hs]].
          * intros Hb. apply Hp. exists b. rewrite Ec. repeat f_equal. unfold bits in Hb. apply (f_equal (@length nat)) in Hb.
            rewrite rev_length, seq_length in Hb. cbn in Hb. pose proof (N.log2_spec e ltac:(lia)) as LS. replace (N.log2 e) with 0%N in LS by lia. cbn in LS. lia.
          * injection Es as <-. lia.
        + intros H. now apply NL in H.
        + intros _ Hp. destruct A6 as [s' [Es Hs]]; eauto. intros Hb. apply Hp. exists b. rewrite Ec. repeat f_equal.
          unfold bits in Hb. apply (f_equal (@length nat)) in Hb.
          rewrite rev_length, seq_length in Hb. cbn in Hb. pose proof (N.log2_spec e ltac:(lia)) as LS. replace (N.log2 e) with 0%N in LS by lia. cbn in LS. lia.
      - exists (AConst v), st, sl. split; [reflexivity|]. split; auto; try discriminate; [cbn [CircuitPolyModel.arg_value]; now rewrite HVo|].
        intros H. exfalso. apply H. left. eauto.
      - exists (AVar i), st, sl. split; [reflexivity|]. split; auto; try discriminate. intros H. exfalso. apply H. right. eauto.
    Qed.

    Lemma run_correct : c <> [] -> exists p, convert_circuit_steps c = Some p /\ run_result F V add mul cst query p = Some (val (length c - 1)).
    Proof.
      intros NE. assert (0 < length c) by (destruct c; [easy|cbn; lia]).
      destruct (convert_ok (length c) (length c - 1) ([], map_new) []) as [a [st [sl [E C]]]].
      - lia.
      - lia.
      - split; cbn [fst snd map_new o2c c2o]; auto; discriminate.
      - reflexivity.
      - unfold convert_circuit_steps. rewrite E. cbn [obind fst snd]. eexists. split; [reflexivity|]. unfold run_result. cbn [fst snd].
        rewrite (g_run _ _ (cv_good _ _ _ _ _ _ C)). cbn [obind]. exact (cv_value _ _ _ _ _ _ C).
    Qed.
  End Val.
End Convert.

(** * Instances *)
Section Scalar.
  Context {F : field}.
  Add Ring Fring : (f_ring F).
  Local Open Scope fld_scope.

  Lemma pow_bits_fpow (x : F) e k : pow_bits F fmul x e (rev (seq 0 k)) (fpow x (N.to_nat (e / 2 ^ N.of_nat k))) = fpow x (N.to_nat e).
  Proof.
    induction k as [|k IH].
    - cbn [seq rev]. unfold pow_bits. cbn [fold_left]. change (2 ^ N.of_nat 0)%N with 1%N. now rewrite N.div_1_r.
    - rewrite seq_S, rev_app_distr. cbn [rev app]. rewrite Nat.add_0_l. unfold pow_bits in *. cbn [fold_left]. rewrite <- IH. f_equal.
      set (h := (e / 2 ^ N.of_nat k)%N). replace (e / 2 ^ N.of_nat (S k))%N with (h / 2)%N.
      2:{ unfold h. rewrite N.div_div by (try apply N.pow_nonzero; lia). f_equal. rewrite Nat2N.inj_succ, N.pow_succ_r'. lia. }
      assert (T : N.testbit e (N.of_nat k) = N.odd h). { unfold h. rewrite <- N.shiftr_div_pow2, <- N.bit0_odd, N.shiftr_spec'. reflexivity. }
      rewrite T. pose proof (N.div2_odd h) as D. rewrite <- N.div2_div. set (y := fpow x (N.to_nat (N.div2 h))).
      assert (Y : y * y = fpow x (2 * N.to_nat (N.div2 h))%nat).
      { replace (2 * N.to_nat (N.div2 h))%nat with (N.to_nat (N.div2 h) + N.to_nat (N.div2 h))%nat by lia. now rewrite fpow_add. }
      rewrite Y. destruct (N.odd h); cbn [N.b2n] in D.
      + replace (N.to_nat h) with (S (2 * N.to_nat (N.div2 h)))%nat by lia. cbn [fpow]. ring.
      + f_equal. lia.
  Qed.
  Lemma vpow_ppow (x : F) e : e <> 0%N -> (e < 2 ^ 64)%N -> vpow F fmul x e = ppow x e.
  Proof.
    intros H H64. rewrite ppow_ok by auto. rewrite <- (pow_bits_fpow x e (N.to_nat (N.log2 e))). unfold vpow. f_equal.
    rewrite N2Nat.id. replace (e / 2 ^ N.log2 e)%N with 1%N.
    - change (N.to_nat 1) with 1%nat. cbn [fpow]. ring.
    - pose proof (N.log2_spec e ltac:(lia)) as [A B]. rewrite N.pow_succ_r' in B.
      apply (N.div_unique e (2 ^ N.log2 e) 1 (e - 2 ^ N.log2 e)); lia.
  Qed.

  Lemma scalar_val (c : circuit F) q vs : wf c -> supported c -> valid q c vs -> forall o s, nth_error c o = Some s ->
    is_val F fadd fmul (fun v => v) q (fun o => nth o vs 0) o s.
  Proof.
    intros W S HV o s E. destruct (valid_at F q c vs o s HV E) as [v [Ev Es]]. assert (Ho : nth o vs 0 = v) by (now apply nth_error_nth).
    destruct (W o s E) as [Wr We]. assert (R : forall r x, nth_error vs r = Some x -> nth r vs 0 = x) by (intros; now apply nth_error_nth).
    destruct s as [l r|l r|b e|x|i]; cbn [is_val step_val exp_ok] in *; rewrite Ho.
    - destruct (nth_error vs l) as [x|] eqn:E1; [|discriminate]. destruct (nth_error vs r) as [y|] eqn:E2; [|discriminate]. cbn [obind] in Es.
      rewrite (R _ _ E1), (R _ _ E2). congruence.
    - destruct (nth_error vs l) as [x|] eqn:E1; [|discriminate]. destruct (nth_error vs r) as [y|] eqn:E2; [|discriminate]. cbn [obind] in Es.
      rewrite (R _ _ E1), (R _ _ E2). congruence.
    - destruct (nth_error vs b) as [x|] eqn:E1; [|discriminate]. cbn [obind] in Es. rewrite (R _ _ E1).
      rewrite vpow_ppow; [congruence|exact (sup_exp _ S o b e E)|auto].
    - congruence.
    - exact Es.
  Qed.

  (** rows of values, one per point *)
  Section Rows.
    Variable n : nat.
    Notation lift f := (map f (seq 0 n)).
    Lemma zip_lift (op : F -> F -> F) (f g : nat -> F) : zip_with F op (lift f) (lift g) = lift (fun j => op (f j) (g j)).
    Proof. unfold zip_with. induction (seq 0 n) as [|j l IH]; cbn [map combine]; [reflexivity|]. cbn [map fst snd]. now rewrite IH. Qed.
    Lemma repeat_lift (v : F) : repeat v n = lift (fun _ => v).
    Proof. generalize 0%nat. induction n as [|m IH]; intros k; cbn [repeat seq map]; [reflexivity|]. now rewrite <- IH. Qed.
    Lemma pow_bits_lift (x acc : nat -> F) e bits :
      pow_bits (list F) (zip_with F fmul) (lift x) e bits (lift acc) = lift (fun j => pow_bits F fmul (x j) e bits (acc j)).
    Proof.
      revert acc. induction bits as [|i bits IH]; intros acc; [reflexivity|]. unfold pow_bits in *. cbn [fold_left].
      rewrite zip_lift. destruct (N.testbit e (N.of_nat i)); [rewrite zip_lift|]; apply IH.
    Qed.
    Lemma lift_nth (l : list F) : length l = n -> lift (fun j => nth j l 0) = l.
    Proof.
      intros <-. apply nth_ext with (d := 0) (d' := 0); rewrite map_length, seq_length; auto. intros i Hi.
      rewrite (nth_indep _ 0 (nth 0%nat l 0)) by (rewrite map_length, seq_length; auto).
      rewrite (map_nth (fun j => nth j l 0)). now rewrite seq_nth.
    Qed.

    Lemma rows_val (c : circuit F) rows (vs : nat -> list F) : wf c -> supported c -> (n_vars c <= length rows)%nat -> (forall r, In r rows -> length r = n) ->
      (forall j, (j < n)%nat -> valid (map (fun r => nth j r 0) rows) c (vs j)) -> forall o s, nth_error c o = Some s ->
      is_val (list F) (zip_with F fadd) (zip_with F fmul) (fun v => repeat v n) rows (fun o => lift (fun j => nth o (vs j) 0)) o s.
    Proof.
      intros W S HN HR HV o s E.
      assert (Q : forall j, (j < n)%nat -> is_val F fadd fmul (fun v => v) (map (fun r => nth j r 0) rows) (fun o => nth o (vs j) 0) o s).
      { intros j Hj. apply (scalar_val c); auto. }
      assert (LE : forall f g : nat -> F, (forall j, (j < n)%nat -> f j = g j) -> lift f = lift g).
      { intros f g H. apply map_ext_in. intros j Hj. apply in_seq in Hj. apply H. lia. }
      destruct s as [l r|l r|b e|x|i]; cbn [is_val] in *.
      - rewrite zip_lift. now apply LE.
      - rewrite zip_lift. now apply LE.
      - unfold vpow in *. rewrite pow_bits_lift. now apply LE.
      - rewrite repeat_lift. now apply LE.
      - assert (I : (i < length rows)%nat).
        { apply nth_error_split in E. destruct E as [c1 [c2 [-> _]]]. rewrite n_vars_app in HN. unfold n_vars at 2 in HN. cbn [map var_bound fold_right] in HN. lia. }
        destruct (nth_error rows i) as [row|] eqn:Er; [|apply nth_error_None in Er; lia]. f_equal.
        rewrite <- (lift_nth row) by (apply HR; eapply nth_error_In; eauto). apply LE. intros j Hj. specialize (Q j Hj).
        rewrite nth_error_map, Er in Q. cbn in Q. congruence.
    Qed.
  End Rows.

  (** * The theorems *)
  Lemma valid_last (q : list F) c vs : c <> [] -> valid q c vs -> nth (length c - 1) vs 0 = last vs 0.
  Proof.
    intros NE [L _]. rewrite <- L. assert (vs <> []) by (intros ->; destruct c; [easy|discriminate]).
    apply nth_error_nth. now apply last_nth_error.
  Qed.

  Lemma compiled_evaluates (c : circuit F) n : c <> [] -> wf c -> supported c -> (n_vars c <= n)%nat ->
    exists steps ret, convert_circuit_steps c = Some (steps, ret) /\
      (forall q v, length q = n -> evaluate c q = Some v -> poly_evaluate (mkPoly c steps ret n) q = Ok v) /\
      (forall rows m w, length rows = n -> (forall r, In r rows -> length r = m) ->
         (forall j, (j < m)%nat -> evaluate c (map (fun r => nth j r 0) rows) = Some (w j)) ->
         poly_batch_evaluate (mkPoly c steps ret n) rows m m = Ok (map w (seq 0 m))).
  Proof.
    intros NE W S Hn. destruct (wf_evals F (repeat 0 n) c W) as [vs0 V0]; [rewrite repeat_length; lia|].
    destruct (run_correct c W S _ _ _ _ _ _ (scalar_val c _ vs0 W S V0) NE) as [[steps ret] [E _]].
    exists steps, ret. split; [exact E|]. split.
    - intros q v L Hv. apply evaluate_valid in Hv. destruct Hv as [vs [Vs ->]].
      destruct (run_correct c W S _ _ _ _ _ _ (scalar_val c q vs W S Vs) NE) as [p [E' R]]. rewrite E in E'. injection E' as <-.
      unfold poly_evaluate. cbn [cp_n_vars cp_steps cp_retval]. rewrite L, Nat.eqb_refl. cbn [negb]. rewrite R. f_equal. now apply (valid_last _ _ _ NE Vs).
    - intros rows m w L HR Hw.
      assert (HX : exists vs, forall j, (j < m)%nat -> valid (map (fun r => nth j r 0) rows) c (vs j) /\ w j = last (vs j) 0).
      { exists (fun j => match evals (map (fun r => nth j r 0) rows) c with Some vs => vs | None => [] end). intros j Hj.
        specialize (Hw j Hj). apply evaluate_valid in Hw. destruct Hw as [vs [Vs E1]]. rewrite (proj2 (evals_valid F _ _ _) Vs). auto. }
      destruct HX as [vs HX].
      destruct (run_correct c W S _ _ _ _ _ _ (rows_val m c rows vs W S ltac:(lia) HR (fun j Hj => proj1 (HX j Hj))) NE) as [p [E' R]].
      rewrite E in E'. injection E' as <-. unfold poly_batch_evaluate. cbn [cp_steps cp_retval]. rewrite Nat.eqb_refl. cbn [negb]. rewrite R.
      f_equal. apply map_ext_in. intros j Hj. apply in_seq in Hj. destruct (HX j ltac:(lia)) as [Vj ->]. now apply (valid_last _ _ _ NE Vj).
  Qed.

  (** C68.  A composition polynomial built from a circuit whose optimised form is supported returns, at every point and on every
      batch of points, the value of the circuit.  Missing: circuits that are not supported (see the refutations below). *)
  Theorem circuit_poly_partial char2 (c e : circuit F) n : (char2 = true -> 1 + 1 = (0 : F)) -> cwf F c ->
    optimize false char2 c = Some e -> supported e -> (n_vars e <= n)%nat ->
    exists p, poly_with_n_vars char2 n c = Ok p /\ (n = n_vars e -> poly_new char2 c = Ok p) /\
      (forall q v, length q = n -> evaluate c q = Some v -> poly_evaluate p q = Ok v) /\
      (forall rows m w, length rows = n -> (forall r, In r rows -> length r = m) ->
         (forall j, (j < m)%nat -> evaluate c (map (fun r => nth j r 0) rows) = Some (w j)) ->
         poly_batch_evaluate p rows m m = Ok (map w (seq 0 m))) /\
      (forall q, length q <> n -> poly_evaluate p q = Err) /\ (forall rows m m', m <> m' -> poly_batch_evaluate p rows m m' = Err).
  Proof.
    intros H2 HC E S Hn. destruct (optimize_checked_correct F char2 c e H2 HC E) as [[NE W] HV].
    destruct (compiled_evaluates e n NE W S Hn) as [steps [ret [E1 [A B]]]]. exists (mkPoly e steps ret n).
    unfold poly_with_n_vars, poly_new. rewrite E, E1, (proj2 (Nat.ltb_ge n (n_vars e)) Hn). split; [reflexivity|]. split; [now intros ->|].
    split; [intros q v L Hv; apply A; auto|]. split; [intros rows m w L HR Hw; apply B; auto|]. split.
    - intros q L. unfold poly_evaluate. cbn [cp_n_vars]. now rewrite (proj2 (Nat.eqb_neq _ _) L).
    - intros rows m m' L. unfold poly_batch_evaluate. now rewrite (proj2 (Nat.eqb_neq _ _) L).
  Qed.
  (** Too few variables are rejected. *)
  Theorem circuit_poly_vars char2 (c e : circuit F) n : optimize false char2 c = Some e -> (n < n_vars e)%nat -> poly_with_n_vars char2 n c = Err.
  Proof. intros E H. unfold poly_with_n_vars. now rewrite E, (proj2 (Nat.ltb_lt _ _) H). Qed.
End Scalar.

(** * Supported circuits can be recognised *)
Section Check.
  Context {F : field}.
  Variable c : circuit F.
  Fixpoint reachb (fuel o t : nat) : bool :=
    (o =? t) || match fuel with 0 => false | S fuel => match nth_error c o with Some s => existsb (fun r => reachb fuel r t) (refs s) | None => false end end.
  Definition leafb (t : nat) : bool := match nth_error c t with Some (SConst _) | Some (SVar _) => true | _ => false end.
  Definition is_mul (r : nat) : bool := match nth_error c r with Some (SMul _ _) => true | _ => false end.
  Definition accumulatorb (t : nat) : bool := existsb (fun s => match s with SAdd l r => (l =? t) && is_mul r | _ => false end) c && negb (leafb t).
  Definition oddb (t : nat) : bool := match nth_error c t with Some (SPow _ e) => N.testbit e 0 && negb (e =? 1)%N | _ => false end.
  Definition apartb (a b : nat) : bool :=
    forallb (fun t => negb ((accumulatorb t || oddb t) && reachb (length c) a t && reachb (length c) b t)) (seq 0 (length c)).
  Definition supportedb : bool :=
    forallb (fun s => match s with
      | SMul a b => apartb a b
      | SAdd a b => match nth_error c b with Some (SMul x y) => if leafb a then apartb a b else apartb a x && apartb a y | _ => apartb a b end
      | SPow _ e => negb (e =? 0)%N
      | _ => true end) c &&
    forallb (fun t => match nth_error c t with Some (SPow _ e) => negb (accumulatorb t && (e =? 1)%N) | _ => true end) (seq 0 (length c)).

  Lemma reachb_ok o t : wf c -> reach c o t -> forall fuel, o <= fuel -> reachb fuel o t = true.
  Proof.
    intros W. induction 1 as [o|o s r t E I _ IH]; intros fuel H.
    - destruct fuel; cbn [reachb]; now rewrite Nat.eqb_refl.
    - pose proof (proj1 (W o s E) r I). destruct fuel as [|fuel]; [lia|]. cbn [reachb]. rewrite E. apply orb_true_iff. right.
      apply existsb_exists. exists r. split; auto. apply IH. lia.
  Qed.
  Lemma leafb_ok t : leafb t = true <-> leaf c t.
  Proof.
    unfold leafb, leaf. split.
    - destruct (nth_error c t) as [[]|]; try discriminate; eauto.
    - intros [[v E]|[i E]]; now rewrite E.
  Qed.
  Lemma accumulatorb_ok t : accumulator c t -> accumulatorb t = true.
  Proof.
    intros [[p [r [a [b [E1 E2]]]]] NL]. unfold accumulatorb. apply andb_true_iff. split.
    - apply existsb_exists. exists (SAdd t r). split; [eapply nth_error_In; eauto|]. unfold is_mul. now rewrite Nat.eqb_refl, E2.
    - destruct (leafb t) eqn:E; auto. now apply leafb_ok in E.
  Qed.
  Lemma oddb_ok t : odd_power c t -> oddb t = true.
  Proof. intros [b [e [E [H N]]]]. unfold oddb. rewrite E, H. now rewrite (proj2 (N.eqb_neq e 1) N). Qed.

  Lemma supportedb_ok : wf c -> supportedb = true -> supported c.
  Proof.
    intros W H. apply andb_true_iff in H. destruct H as [H1 H2]. rewrite forallb_forall in H1, H2. split.
    - intros a b t T HF Ra Rb.
      assert (K : apartb a b = true /\ (a <= length c)%nat /\ (b <= length c)%nat).
      { destruct T as [p b E|p b E NP|p r x y b E NL Er Hb].
        - specialize (H1 _ (nth_error_In _ _ E)). pose proof (proj1 (W p _ E)) as R. pose proof (nth_error_lt _ _ _ E). cbn [refs In] in R.
          pose proof (R a ltac:(auto)). pose proof (R b ltac:(auto)). split; [exact H1|lia].
        - specialize (H1 _ (nth_error_In _ _ E)). pose proof (proj1 (W p _ E)) as R. pose proof (nth_error_lt _ _ _ E). cbn [refs In] in R.
          pose proof (R a ltac:(auto)). pose proof (R b ltac:(auto)). split; [|lia]. cbv beta iota in H1.
          destruct (nth_error c b) as [[]|] eqn:Eb; auto. destruct NP as [NP|NP]; [|now destruct (NP _ _ eq_refl)].
          apply leafb_ok in NP. now rewrite NP in H1.
        - specialize (H1 _ (nth_error_In _ _ E)). pose proof (proj1 (W p _ E)) as R. pose proof (nth_error_lt _ _ _ E). cbn [refs In] in R.
          pose proof (R a ltac:(auto)). pose proof (R r ltac:(auto)). pose proof (proj1 (W r _ Er)) as R'. cbn [refs In] in R'.
          pose proof (R' x ltac:(auto)). pose proof (R' y ltac:(auto)). cbv beta iota in H1. rewrite Er in H1.
          destruct (leafb a) eqn:La; [apply leafb_ok in La; contradiction|]. apply andb_true_iff in H1 as [K1 K2].
          destruct Hb as [->| ->]; (split; [auto|lia]). }
      destruct K as [K [La Lb]]. unfold apartb in K. rewrite forallb_forall in K.
      assert (Ht : (t < length c)%nat).
      { pose proof (reach_le c W a t Ra). pose proof (reach_le c W b t Rb). destruct HF as [[_ _]|[b0 [e0 [HF _]]]]; [|now apply nth_error_lt in HF].
        destruct T as [p b E|p b E NP|p r x y b E NL Er Hb]; pose proof (nth_error_lt _ _ _ E); pose proof (proj1 (W p _ E) a ltac:(cbn; auto)); lia. }
      specialize (K t ltac:(apply in_seq; lia)).
      rewrite (reachb_ok a t W Ra), (reachb_ok b t W Rb) in K by lia.
      assert (accumulatorb t || oddb t = true) as G by (apply orb_true_iff; destruct HF as [HF|HF]; [left; now apply accumulatorb_ok|right; now apply oddb_ok]).
      now rewrite G in K.
    - intros p b e E. specialize (H1 _ (nth_error_In _ _ E)). cbn in H1. intros ->. discriminate.
    - intros t b A E. pose proof (nth_error_lt _ _ _ E). specialize (H2 t ltac:(apply in_seq; lia)). rewrite E in H2.
      rewrite (accumulatorb_ok t A) in H2. discriminate.
  Qed.
End Check.

(** * Examples and refutations *)
(** (x0 x1 + x1) (x0 x1) + (x0 x1)^6 x0: the product x0 x1 is shared by three terms. *)
Definition shared16 : circuit X16 :=
  [SVar 0; SVar 1; SMul 0 1; SAdd 2 1; SMul 3 2; SPow 2 6; SMul 5 0; SAdd 4 6].
Fact circuit_poly_ex : cwf X16 shared16 /\ optimize false true shared16 = Some shared16 /\ supported shared16 /\
  exists p, poly_new true shared16 = Ok p /\ length (cp_steps p) = 7 /\
    match poly_evaluate p (els [2; 7]%N) with Ok v => Some (bits v) | _ => None end = option_map bits (evaluate shared16 (els [2; 7]%N)) /\
    option_map bits (evaluate shared16 (els [2; 7]%N)) = Some 5%N.
Proof.
  assert (W : wf shared16).
  { intros i s H. do 8 (destruct i as [|i]; [injection H as <-; cbn [refs exp_ok In]; split; [intros r Hr; cbn [In] in Hr; intuition lia|reflexivity || exact I]|]). destruct i; discriminate H. }
  split; [split; [discriminate|exact W]|].
  split; [reflexivity|].
  split; [apply supportedb_ok; [exact W|vm_compute; reflexivity]|].
  eexists.
  split; [reflexivity|].
  split; [reflexivity|].
  split; [vm_compute; reflexivity|].
  vm_compute; reflexivity.
Qed.

(** x0 x1 (x0 x1 + x2 x3): the accumulator is overwritten while the product still refers to its slot, and the polynomial computes
    (x0 x1 + x2 x3)^2. *)
Definition clobber16 : circuit X16 :=
  let a := cmul (cvar 0) (cvar 1) in cmul a (cadd a (cmul (cvar 2) (cvar 3))).
Theorem shared_accumulator_refuted : cwf X16 clobber16 /\ exists p q v w, poly_new true clobber16 = Ok p /\
  evaluate clobber16 q = Some v /\ poly_evaluate p q = Ok w /\ v <> w.
Proof.
  split.
  { destruct (circuits_wf X16) as [_ [Hv [Ho _]]]. assert (A : cwf X16 (cmul (cvar 0) (cvar 1))) by (apply Ho; apply Hv).
    apply Ho; [exact A|]. apply Ho; [exact A|]. apply Ho; apply Hv. }
  eexists. exists (els [1; 2; 1; 1]%N), (el 1), (el 2).
  split; [reflexivity|].
  split; [vm_compute; reflexivity|].
  split; [vm_compute; reflexivity|].
  intros H. apply (f_equal bits) in H. vm_compute in H. discriminate.
Qed.

(** (x0^3 + x1) x0^3: the second use of the cube reads the slot of the square. *)
Definition cube16 : circuit X16 := let a := cpow (cvar 0) 3 in cmul (cadd a (cvar 1)) a.
Theorem shared_odd_power_refuted : cwf X16 cube16 /\ exists p q v w, poly_new true cube16 = Ok p /\
  evaluate cube16 q = Some v /\ poly_evaluate p q = Ok w /\ v <> w.
Proof.
  split.
  { destruct (circuits_wf X16) as [_ [Hv [Ho Hp]]]. assert (A : cwf X16 (cpow (cvar 0) 3)) by (apply Hp; [reflexivity|apply Hv]).
    apply Ho; [|exact A]. apply Ho; [exact A|apply Hv]. }
  eexists. exists (els [2; 0]%N), (el 1), (el 3).
  split; [reflexivity|].
  split; [vm_compute; reflexivity|].
  split; [vm_compute; reflexivity|].
  intros H. apply (f_equal bits) in H. vm_compute in H. discriminate.
Qed.

(** x0^0: the polynomial cannot be built. *)
Theorem zero_power_refuted : cwf X16 (cpow (cvar 0) 0) /\ poly_new true (cpow (cvar 0) 0 : circuit X16) = Panic /\
  evaluate (cpow (cvar 0) 0) [el 2] = Some (el 1).
Proof.
  split.
  { destruct (circuits_wf X16) as [_ [Hv [_ Hp]]]. apply Hp; [reflexivity|apply Hv]. }
  split; [reflexivity|].
  vm_compute; reflexivity.
Qed.
