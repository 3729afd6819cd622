(** What a sumcheck prover must do, independent of its implementation (the contract stated in the
    documentation of the trait [SumcheckProver]). *)
Require Import Coq.Arith.Arith Coq.Lists.List Coq.Bool.Bool.
From Verif Require Import Base.Fld Base.Lists Base.Sums Base.Poly Math.MleSpec Sumcheck.SumcheckModel Sumcheck.SumcheckSpec
  Sumcheck.BatchProverModel.
Import ListNotations.

Section Spec.
  Variable F : field.
  Variable St : Type.
  Variable ops : prover_ops F St.
  Local Open Scope fld_scope.

  (** State [s] serves the instance [i] after the challenges [p], with [k] rounds left: it computes the
      round polynomials, accepts every challenge, and ends with the evaluations of the multilinears. *)
  Fixpoint serves (o : order) (i : inst F) (k : nat) (p : list F) (s : St) : Prop :=
    p_n ops s = cl_n (fst i) /\ p_order ops s = o /\
    match k with
    | O => p_finish ops s = Ok (mvals i (pt o p))
    | S k' =>
      forall a, exists c s', p_exec ops s a = Ok (c, s') /\
        length c = S (max_individual_degree (fst i)) /\
        (forall x, peval c x = round_value o i a p x k') /\
        forall x, exists s'', p_fold ops s' x = Ok s'' /\ serves o i k' (p ++ [x]) s''
    end.
End Spec.

Arguments serves {_ _} _ _ _ _ _ _.
