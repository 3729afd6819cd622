(** Model of crates/core/src/protocols/sumcheck/prove/regular_sumcheck.rs. *)
Require Import Coq.Arith.Arith Coq.Lists.List Coq.Bool.Bool.
From Verif Require Import Base.Fld Base.Lists Base.Sums Math.MleModel Math.UnivariateModel Sumcheck.SumcheckModel
  Sumcheck.BatchProverModel Sumcheck.StateModel.
Import ListNotations.

Section Model.
  Variable F : field.
  Variable lw max_src_vars : nat.
  Variable junk : nat -> list F.
  Variable parts : nat -> list (list nat).
  Local Open Scope fld_scope.

  (** lines 73-85 *)
  Record regular : Type := mkRegular
    { rg_n : nat; rg_state : pstate F; rg_comps : list (comp F); rg_domains : list (intdomain F) }.

  (** lines 98-162; [switchover m]: the value of the switchover function for the extension degree of [m] *)
  Definition regular_new (o : order) (ms : list (mpoly F)) (sums : list (comp F * F)) (factory : nat -> res (evdomain F))
      (switchover : mpoly F -> nat) : res regular :=
    try n <- equal_n_vars_check ms;
    if existsb (fun cs => negb (c_nv (fst cs) =? length ms)%nat) sums then Err
    else
      try domains <- domains_for factory (map (fun cs => c_deg (fst cs)) sums);
      try points <- nontrivial_points domains;
      try state <- ps_new lw o n (map (fun m => transparent m (switchover m)) ms) (map snd sums) points;
      Ok (mkRegular n state (map fst sums) domains).

  (** lines 239-287: [RegularSumcheckEvaluator]; [const_eval_suffix] and [process_constant_eval_suffix]
      are the defaults of the trait (crates/hal/src/sumcheck_evaluator.rs lines 44-66) *)
  Definition regular_evaluator (c : comp F) : evaluator F :=
    mkEval 1 (c_deg c + 1)
      (fun sv _ inf rows => batch_evaluate (if inf then c_lead c else c_eval c) (2 ^ (sv - lw) * 2 ^ lw) rows)
      (fun _ _ => Ok 0) 0 (c_used c).

  (** lines 289-319 *)
  Definition regular_interpolate (d : intdomain F) (sum : F) (evals : list F) : res (list F) :=
    match evals with
    | [] => Panic
    | e :: _ =>
      let l := (sum - e) :: evals in
      let l := if (3 <? length l)%nat then firstn 2 l ++ skipn 3 l ++ [nth 2 l 0] else l in
      interpolate d l
    end.

  (** lines 193-214 *)
  Definition regular_execute (s : regular) (a : F) : res (list F * regular) :=
    let pairs := combine (rg_comps s) (rg_domains s) in
    try evals <- ps_round_evals lw max_src_vars junk parts (rg_state s) (map (fun cd => regular_evaluator (fst cd)) pairs);
    try r <- ps_round_coeffs (rg_state s) (map (fun cd => regular_interpolate (snd cd)) pairs) a evals;
    Ok (fst r, mkRegular (rg_n s) (snd r) (rg_comps s) (rg_domains s)).

  (** lines 187-191 *)
  Definition regular_fold (s : regular) (x : F) : res regular :=
    try s' <- ps_fold lw max_src_vars junk (rg_state s) x; Ok (mkRegular (rg_n s) s' (rg_comps s) (rg_domains s)).

  (** lines 177-185, 216-218 *)
  Definition regular_ops : prover_ops F regular :=
    mkOps rg_n (fun s => ps_order (rg_state s)) regular_execute regular_fold (fun s => ps_finish lw (rg_state s)).
End Model.

Arguments mkRegular {_} _ _ _ _.
Arguments rg_n {_} _.
Arguments rg_state {_} _.
Arguments rg_comps {_} _.
Arguments rg_domains {_} _.
Arguments regular_new {_} _ _ _ _ _ _.
Arguments regular_evaluator {_} _ _.
Arguments regular_interpolate {_} _ _ _.
Arguments regular_execute {_} _ _ _ _ _ _.
Arguments regular_fold {_} _ _ _ _ _.
Arguments regular_ops {_} _ _ _ _.
