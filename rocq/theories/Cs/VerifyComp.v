(** C74: compiled circuits along polynomial curves, as the univariate round of zerocheck needs them. *)
Require Import Coq.NArith.NArith Coq.setoid_ring.Ring Coq.Arith.Arith Coq.Lists.List Coq.Bool.Bool Lia.
From Verif Require Import Base.Fld Base.Lists Base.Sums Base.Poly Math.MleSpec Math.ArithModel Math.ArithProofs Math.ArithProps Math.ArithTree
  Field.TowerProofs Protocol.Proto Compute.CircuitPolyModel Sumcheck.SumcheckModel Sumcheck.SumcheckSpec Sumcheck.ZerocheckModel Sumcheck.ZerocheckProps
  Evalcheck.EvalProofs Evalcheck.EvalExtend Evalcheck.GreedyModel Evalcheck.GreedyComp.
Import ListNotations.
Local Close Scope N_scope.
Local Open Scope nat_scope.

Section Curve.
  Context {F : field}.

  (** the value of an expression *)
  Fixpoint teval (q : list F) (t : tree F) : F :=
    match t with
    | TC v => v
    | TV i => nth i q f0
    | TA a b => (teval q a + teval q b)%F
    | TM a b => (teval q a * teval q b)%F
    | TP a e => fpow (teval q a) (N.to_nat e)
    end.

  Lemma unf_value q (c : circuit F) vs i t : wf c -> valid q c vs -> unf c i t -> nth_error vs i = Some (teval q t).
  Proof.
    intros W HV U. assert (LV : length vs = length c) by apply HV.
    induction U as [i v E|i x E|i l r a b E U1 IH1 U2 IH2|i l r a b E U1 IH1 U2 IH2|i b e a E U1 IH1]; pose proof (nth_error_lt _ _ _ E) as LT;
      destruct (W _ _ E) as [_ XO]; cbn [teval];
      assert (S1 := proj2 HV _ _ E); destruct (nth_error_ex vs i ltac:(lia)) as [y Ey]; rewrite Ey in S1 |- *; apply step_val_prefix in S1; cbn [step_val] in S1.
    - congruence.
    - rewrite (nth_error_nth _ _ _ S1). reflexivity.
    - rewrite IH1, IH2 in S1. cbn [obind] in S1. congruence.
    - rewrite IH1, IH2 in S1. cbn [obind] in S1. congruence.
    - rewrite IH1 in S1. cbn [obind] in S1. rewrite ppow_ok in S1 by exact XO. congruence.
  Qed.

  Lemma is_poly_pow n (f : F -> F) e : is_poly (S n) f -> is_poly (S (n * e)) (fun x => fpow (f x) e).
  Proof.
    intros H. induction e as [|e IH]; cbn [fpow].
    - rewrite Nat.mul_0_r. apply is_poly_const.
    - replace (n * S e) with (n + n * e) by lia. now apply is_poly_mul.
  Qed.

  Lemma teval_poly L (ps : list (list F)) t : Forall (fun p => length p <= S L) ps -> is_poly (S (tdeg t * L)) (fun x => teval (map (fun p => peval p x) ps) t).
  Proof.
    intros HP. induction t as [v|i|a IHa b IHb|a IHa b IHb|a IHa e]; cbn [tdeg teval].
    - apply is_poly_const.
    - rewrite Nat.mul_1_l. destruct (Nat.lt_ge_cases i (length ps)) as [Hi|Hi].
      + apply (is_poly_ext F _ _ (peval (nth i ps []))).
        { intros x. rewrite (nth_indep _ f0 (peval [] x)) by (now rewrite map_length). now rewrite (map_nth (fun p => peval p x)). }
        rewrite Forall_forall in HP. apply is_poly_le with (n := length (nth i ps [])); [apply HP; now apply nth_In|apply is_poly_peval].
      + apply (is_poly_ext F _ _ (fun _ => f0)); [intros x; rewrite nth_overflow; [reflexivity|now rewrite map_length]|].
        apply is_poly_le with (n := 1); [lia|apply is_poly_const].
    - apply is_poly_add; (eapply is_poly_le; [|eassumption]); apply le_n_S, Nat.mul_le_mono_r; lia.
    - rewrite Nat.mul_add_distr_r. now apply is_poly_mul.
    - replace (tdeg a * N.to_nat e * L) with (tdeg a * L * N.to_nat e) by lia. now apply is_poly_pow.
  Qed.
End Curve.

Theorem circuit_comp_curve L n (c : circuit (TF L)) k : cwf (TF L) c -> n_vars c <= n -> circuit_comp n c = Ok k -> faithful L n c k -> curve_ok k.
Proof.
  intros W NV E FA. pose proof (circuit_comp_ok L n c k W NV E FA) as [_ EN]. unfold circuit_comp, poly_with_n_vars in E.
  destruct (optimize false true c) as [e|] eqn:EO; [|discriminate].
  destruct (Nat.ltb_spec n (n_vars e)) as [|NE]; [discriminate|].
  destruct (convert_circuit_steps e) as [[steps ret]|]; [|discriminate]. cbn [rbind cp_expr] in E.
  destruct (optimize_checked_correct (TF L) true c e (fun _ => TF_char2 L) W EO) as [We HV].
  destruct (degree e) as [d|] eqn:ED; [|discriminate]. destruct (leading_term e) as [lt|]; [|discriminate]. destruct (vars_usage e) as [u|]; [|discriminate].
  assert (DK : c_deg k = d) by (now injection E as <-).
  destruct (unf_ex e (length e - 1) (proj2 We)) as [t R]. { destruct We as [NN _]. destruct e; [congruence|cbn; lia]. }
  pose proof (degree_unf e t d ED R) as Dt.
  intros D ps LP HP. destruct (teval_poly D ps t HP) as [cs [LC EC]]. exists cs. rewrite DK, Dt. split; [exact LC|].
  intros x. rewrite <- EC. assert (Lq : length (map (fun p => peval p x) ps) = n) by (rewrite map_length; congruence).
  destruct (wf_evaluate L c (map (fun p => peval p x) ps) (proj2 W)) as [v Ev]; [lia|]. rewrite (FA _ v Lq Ev). f_equal.
  apply HV in Ev. apply evaluate_valid in Ev as (vs & Hv & ->). pose proof (unf_value _ e vs _ t (proj2 We) Hv R) as U.
  rewrite <- (proj1 Hv), last_nth_error in U; [now injection U|]. intros ->. destruct Hv as [LV _]. destruct e; [now apply (proj1 We)|discriminate].
Qed.
