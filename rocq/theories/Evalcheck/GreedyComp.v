(** C73: compiled circuits as composition polynomials. *)
Require Import Coq.NArith.NArith Coq.setoid_ring.Ring Coq.Arith.Arith Coq.Lists.List Coq.Bool.Bool Lia.
From Verif Require Import Base.Fld Base.Lists Base.Sums Base.Poly Math.MleSpec Math.ArithModel Math.ArithProofs Math.ArithProps
  Field.TowerProofs Protocol.Proto Compute.CircuitPolyModel Compute.CircuitPolyProps
  Sumcheck.SumcheckModel Sumcheck.SumcheckSpec
  Evalcheck.OracleModel Evalcheck.EvalModel Evalcheck.EvalSpec Evalcheck.EvalProofs Evalcheck.EvalExtend Evalcheck.GreedyModel.
Import ListNotations.

Section Comp.
  Variable L : nat.
  Notation F := (TF L).
  Local Open Scope fld_scope.

  (** The compiled polynomial [k] has the values of the circuit [c]. *)
  Definition faithful (n : nat) (c : circuit F) (k : comp F) : Prop :=
    forall q v, length q = n -> evaluate c q = Some v -> SumcheckModel.c_eval k q = Ok v.

  Lemma svar_offset o i (c : circuit F) : In (SVar i) (map (offset_step o) c) -> In (SVar i) c.
  Proof. intros H. apply in_map_iff in H as [s [E H]]. destruct s; cbn in E; try discriminate. now injection E as ->. Qed.
  Lemma svar_add i (a b : circuit F) : In (SVar i) (cadd a b) -> In (SVar i) a \/ In (SVar i) b.
  Proof.
    unfold cadd. rewrite !in_app_iff. intros [[H|H]|[H|[]]]; auto; [|discriminate]. right. now apply svar_offset in H.
  Qed.
  Lemma svar_mul i (a b : circuit F) : In (SVar i) (cmul a b) -> In (SVar i) a \/ In (SVar i) b.
  Proof.
    unfold cmul. rewrite !in_app_iff. intros [[H|H]|[H|[]]]; auto; [|discriminate]. right. now apply svar_offset in H.
  Qed.

  Lemma leading_vars (c : circuit F) fuel : forall i r, leading fuel c i = Some r -> forall x, In (SVar x) (snd r) -> In (SVar x) c.
  Proof.
    induction fuel as [|fuel IH]; intros i r E x Hx; [discriminate|]. cbn [leading] in E.
    destruct (nth_error c i) as [s|] eqn:Es; [|discriminate]. apply nth_error_In in Es. cbn [obind] in E.
    destruct s as [l r0|l r0|b e|v|j].
    - destruct (leading fuel c l) as [a|] eqn:E1; [|discriminate]. destruct (leading fuel c r0) as [b|] eqn:E2; [|discriminate].
      cbn [obind] in E. injection E as <-. destruct (fst a ?= fst b)%nat; cbn [snd] in Hx.
      + apply svar_add in Hx as [Hx|Hx]; eauto.
      + eauto.
      + eauto.
    - destruct (leading fuel c l) as [a|] eqn:E1; [|discriminate]. destruct (leading fuel c r0) as [b|] eqn:E2; [|discriminate].
      cbn [obind] in E. injection E as <-. cbn [snd] in Hx. apply svar_mul in Hx as [Hx|Hx]; eauto.
    - destruct (leading fuel c b) as [a|] eqn:E1; [|discriminate]. cbn [obind] in E. injection E as <-. cbn [snd] in Hx.
      unfold cpow in Hx. apply in_app_iff in Hx as [Hx|[Hx|[]]]; [eauto|discriminate].
    - injection E as <-. destruct Hx as [Hx|[]]. discriminate.
    - injection E as <-. destruct Hx as [Hx|[]]. injection Hx as ->. exact Es.
  Qed.

  Theorem circuit_comp_ok n (c : circuit F) k : cwf F c -> (n_vars c <= n)%nat -> circuit_comp n c = Ok k -> faithful n c k ->
    comp_ok k /\ c_nv k = n.
  Proof.
    intros W NV E FA. unfold circuit_comp, poly_with_n_vars in E.
    destruct (optimize false true c) as [e|] eqn:EO; [|discriminate].
    destruct (Nat.ltb_spec n (n_vars e)) as [|NE]; [discriminate|].
    destruct (convert_circuit_steps e) as [[steps ret]|]; [|discriminate]. cbn [rbind cp_expr] in E.
    destruct (optimize_checked_correct F true c e (fun _ => TF_char2 L) W EO) as [We HV].
    destruct (degree_leading_term_correct F e We) as (d & lc & ED & EL & Wl & HT). rewrite ED, EL in E.
    destruct (vars_usage_correct F e) as (u & EU & LU & HU & HI). rewrite EU in E. injection E as <-.
    assert (EVC : forall q, length q = n -> exists v, evaluate c q = Some v /\ evaluate e q = Some v).
    { intros q Lq. destruct (wf_evaluate L c q (proj2 W)) as [v Ev]; [lia|]. exists v. split; auto. }
    unfold faithful in FA. cbn [SumcheckModel.c_eval] in FA.
    split; [|reflexivity]. unfold comp_ok. cbn [c_nv c_deg SumcheckModel.c_eval c_lead c_used].
    assert (LL : forall b, length b = n -> exists v, evaluate lc b = Some v).
    { intros b Lb. destruct (HT b b eq_refl) as (co & _ & _ & EB); [lia|]. eauto. }
    split; [|split; [|split; [|split]]].
    - intros q Hq. unfold poly_evaluate. cbn [cp_n_vars]. now rewrite (proj2 (Nat.eqb_neq _ _) Hq).
    - intros q Hq. destruct (EVC q Hq) as (v & Ev & _). eauto.
    - intros a b La Lb. destruct (HT a b) as (co & LC & EC & EB); [lia|lia|]. exists co. split; auto. split.
      + intros t. assert (LA : length (aline a b t) = n) by (unfold aline; rewrite map_length, combine_length; lia).
        destruct (EVC _ LA) as (v & Ev & Ev'). rewrite (FA _ v LA Ev). specialize (EC t).
        change (line F a b t) with (aline a b t) in EC. rewrite EC in Ev'. injection Ev' as ->. reflexivity.
      + rewrite Lb, Nat.eqb_refl, EB. reflexivity.
    - rewrite app_length, repeat_length. lia.
    - intros q q' Lq Lq' AG.
      assert (AU : forall i, nth i u false = true -> nth_error q i = nth_error q' i).
      { intros i Hi. assert (Hl : (i < length u)%nat).
        { destruct (Nat.lt_ge_cases i (length u)); auto. rewrite nth_overflow in Hi by auto. discriminate. }
        assert (AI : nth i (u ++ repeat false (n - length u)) false = true) by (rewrite app_nth1; auto).
        specialize (AG i AI). rewrite (nth_error_nth' q 0), (nth_error_nth' q' 0) by lia. now rewrite AG. }
      split.
      + destruct (EVC q Lq) as (v & Ev & Ev'). destruct (EVC q' Lq') as (v' & Ew & Ew').
        rewrite (FA _ v Lq Ev), (FA _ v' Lq' Ew). rewrite (HI q q' AU) in Ev'. congruence.
      + rewrite Lq, Lq', Nat.eqb_refl. destruct (vars_usage_correct F lc) as (ul & _ & _ & HUl & HIl).
        rewrite (HIl q q'); auto. intros i Hi. apply AU. apply HU. apply HUl in Hi.
        unfold leading_term in EL. destruct (leading (S (length e)) e (length e - 1)) as [r|] eqn:ER; [|discriminate].
        injection EL as <-. eapply leading_vars; eauto.
  Qed.

  (** A product of two variables is compiled correctly, and has degree two. *)
  Lemma bivariate_comp a b n k : circuit_comp n ([SVar a; SVar b; SMul 0 1] : circuit F) = Ok k ->
    faithful n [SVar a; SVar b; SMul 0 1] k /\ c_deg k = 2%nat.
  Proof.
    unfold circuit_comp, poly_with_n_vars.
    assert (E : optimize false true ([SVar a; SVar b; SMul 0 1] : circuit F) =
      Some (if (a =? b)%nat then [SVar a; SMul 0 0] else [SVar a; SVar b; SMul 0 1])).
    { cbn -[TF Nat.eqb]. unfold deduplicate_steps. cbn -[TF Nat.eqb]. destruct (a =? b)%nat; reflexivity. }
    rewrite E. clear E. destruct (Nat.eqb_spec a b) as [->|NE].
    - destruct (n <? _)%nat eqn:EN; [discriminate|]. apply Nat.ltb_ge in EN. cbn in EN.
      set (e := [SVar b; SMul 0 0] : circuit F).
      assert (EC : convert_circuit_steps e = Some ([CMul (AVar b) (AVar b)], ASlot 0)) by reflexivity. rewrite EC. clear EC.
      cbn [rbind cp_expr]. destruct (degree e) as [d|] eqn:ED; [|discriminate]. destruct (leading_term e) as [lt|]; [|discriminate].
      destruct (vars_usage e) as [u|]; [|discriminate]. intros H. injection H as <-. cbn [c_deg]. split; [|now injection ED as <-].
      intros q v Lq. cbn [SumcheckModel.c_eval]. unfold poly_evaluate. cbn [cp_n_vars cp_steps cp_retval]. rewrite Lq, Nat.eqb_refl. cbn [negb].
      unfold evaluate, run_result, run. cbn -[TF fmul nth_error last]. cbn [nth_error].
      destruct (nth_error q b) as [y|]; cbn -[TF fmul]; [|discriminate]. intros H. injection H as <-. reflexivity.
    - destruct (n <? _)%nat eqn:EN; [discriminate|]. apply Nat.ltb_ge in EN. cbn in EN.
      set (e := [SVar a; SVar b; SMul 0 1] : circuit F).
      assert (EC : convert_circuit_steps e = Some ([CMul (AVar a) (AVar b)], ASlot 0)) by reflexivity. rewrite EC. clear EC.
      cbn [rbind cp_expr]. destruct (degree e) as [d|] eqn:ED; [|discriminate]. destruct (leading_term e) as [lt|]; [|discriminate].
      destruct (vars_usage e) as [u|]; [|discriminate]. intros H. injection H as <-. cbn [c_deg]. split; [|now injection ED as <-].
      intros q v Lq. cbn [SumcheckModel.c_eval]. unfold poly_evaluate. cbn [cp_n_vars cp_steps cp_retval]. rewrite Lq, Nat.eqb_refl. cbn [negb].
      unfold e, evaluate, run_result, run. cbn -[TF fmul nth_error last]. cbn [nth_error].
      destruct (nth_error q a) as [x|]; cbn -[TF fmul nth_error]; [|discriminate].
      destruct (nth_error q b) as [y|]; cbn -[TF fmul]; [|discriminate]. intros H. injection H as <-. reflexivity.
  Qed.
End Comp.
