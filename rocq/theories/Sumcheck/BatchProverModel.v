(** Model of the drivers that run several sumcheck provers in one batch:
    crates/core/src/protocols/sumcheck/prove/{batch_sumcheck,front_loaded}.rs. *)
Require Import Coq.Arith.Arith Coq.Lists.List Coq.Bool.Bool.
From Verif Require Import Base.Fld Base.Lists Base.Sums Math.MleModel Math.UnivariateModel Math.UnivariateProps Protocol.Proto
  Sumcheck.SumcheckModel.
Import ListNotations.

(** The trait [SumcheckProver] (batch_sumcheck.rs lines 38-69), with state type [St]. *)
Record prover_ops (F : field) (St : Type) : Type := mkOps
  { p_n : St -> nat;
    p_order : St -> order;
    p_exec : St -> F -> res (list F * St);
    p_fold : St -> F -> res St;
    p_finish : St -> res (list F) }.
Arguments mkOps {_ _} _ _ _ _ _.
Arguments p_n {_ _} _ _.
Arguments p_order {_ _} _ _.
Arguments p_exec {_ _} _ _ _.
Arguments p_fold {_ _} _ _ _.
Arguments p_finish {_ _} _ _.

Section Model.
  Variable F : field.
  Variable St : Type.
  Variable ops : prover_ops F St.

  (** [for (&batch_coeff, prover) in izip!(&batch_coeffs, &mut provers)]: batch_sumcheck.rs lines
      154-158, front_loaded.rs lines 128-132 *)
  Fixpoint exec_all (acts : list (St * F)) (acc : list F) : res (list F * list (St * F)) :=
    match acts with
    | [] => Ok (acc, [])
    | (s, a) :: acts' =>
      try r <- p_exec ops s a;
      let '(c, s') := r in
      try r' <- exec_all acts' (rc_add acc (rc_mul c a));
      let '(acc', rest) := r' in
      Ok (acc', (s', a) :: rest)
    end.

  (** batch_sumcheck.rs lines 168-170, front_loaded.rs lines 140-152 *)
  Fixpoint fold_all (acts : list (St * F)) (x : F) : res (list (St * F)) :=
    match acts with
    | [] => Ok []
    | (s, a) :: acts' => try s' <- p_fold ops s x; try rest <- fold_all acts' x; Ok ((s', a) :: rest)
    end.

  (** lines 143-151: the inner [while let].  The [provers] vector is split into the active ones, paired
      with their coefficients, and the rest. *)
  Fixpoint p_activate (n : nat) (pend : list St) (acts : list (St * F)) : pproto F (list (St * F) * list St) :=
    match pend with
    | [] => PRet (Ok (acts, []))
    | s :: pend' =>
      if negb (p_n ops s =? n)%nat then PRet (Ok (acts, pend))
      else PSample (fun a => p_activate n pend' (acts ++ [(s, a)]))
    end.

  (** lines 140-171 *)
  Fixpoint p_rounds (n : nat) (acts : list (St * F)) (pend : list St) (chal : list F)
    : pproto F (list (St * F) * list St * list F) :=
    match n with
    | O => PRet (Ok (acts, pend, chal))
    | S n' =>
      put st <- p_activate n pend acts;
      let '(acts, pend) := st in
      put r <- PRet (exec_all acts []);
      let '(coeffs, acts) := r in
      PSend (rc_truncate coeffs) (
      PSample (fun x =>
      put acts <- PRet (fold_all acts x);
      p_rounds n' acts pend (chal ++ [x])))
    end.

  (** lines 184-187 *)
  Fixpoint send_evals {A} (evals : list (list F)) (k : pproto F A) : pproto F A :=
    match evals with
    | [] => k
    | e :: evals' => PSend e (send_evals evals' k)
    end.

  (** lines 102-199; the [debug_assert] of line 175 is not modelled *)
  Definition batch_prove (provers : list St) : pproto F (list F * list (list F)) :=
    match provers with
    | [] => PRet (Ok ([], []))
    | first :: _ =>
      if existsb (fun s => negb (order_eqb (p_order ops s) (p_order ops first))) provers then PRet Err
      else if negb (is_sorted_ascending (rev (map (p_n ops) provers))) then PRet Err
      else
        let n_rounds := fold_right Nat.max 0%nat (map (p_n ops) provers) in
        put r <- p_rounds n_rounds [] provers [];
        let '(acts, pend, chal) := r in
        put _ <- psamples (length pend);
        put evals <- PRet (collect_res (map (p_finish ops) (map fst acts ++ pend)));
        send_evals evals (
        PRet (Ok (match p_order ops first with HighToLow => rev chal | LowToHigh => chal end, evals)))
    end.

  (* ---------------------------------------------------------------- *)
  (** front_loaded.rs: [BatchProver], lines 34-38 *)
  Record bprover : Type := mkP { bp_provers : list (St * F); bp_evals : list (list F); bp_round : nat }.

  (** lines 78-103 *)
  Definition bp_new_prebatched (coeffs : list F) (provers : list St) : res bprover :=
    if negb (is_sorted_ascending (map (p_n ops) provers)) then Err
    else if negb (length coeffs =? length provers)%nat then Err
    else if match provers with
            | [] => false
            | first :: _ => existsb (fun s => negb (order_eqb (p_order ops s) (p_order ops first))) provers
            end then Err
    else Ok (mkP (combine provers coeffs) [] 0).

  (** lines 51-59 *)
  Definition bp_new (provers : list St) : pproto F bprover :=
    put coeffs <- psamples (length provers);
    PRet (bp_new_prebatched coeffs provers).

  (** lines 62-70 *)
  Definition bp_total_rounds (b : bprover) : nat :=
    match rev (bp_provers b) with [] => O | (s, _) :: _ => p_n ops s end.

  (** lines 105-119 *)
  Fixpoint finish_provers (provers : list (St * F)) (evals : list (list F)) (round : nat) : pproto F bprover :=
    match provers with
    | [] => PRet (Ok (mkP [] evals round))
    | (s, a) :: provers' =>
      if negb (p_n ops s =? round)%nat then PRet (Ok (mkP provers evals round))
      else
        put e <- PRet (p_finish ops s);
        PSend e (finish_provers provers' (evals ++ [e]) round)
    end.

  (** lines 122-137 *)
  Definition send_round_proof (b : bprover) : pproto F bprover :=
    put b <- finish_provers (bp_provers b) (bp_evals b) (bp_round b);
    put r <- PRet (exec_all (bp_provers b) []);
    let '(coeffs, provers) := r in
    PSend (rc_truncate coeffs) (PRet (Ok (mkP provers (bp_evals b) (bp_round b)))).

  (** lines 140-154 *)
  Definition receive_challenge (b : bprover) (x : F) : res bprover :=
    try provers <- fold_all (bp_provers b) x;
    Ok (mkP provers (bp_evals b) (S (bp_round b))).

  (** lines 157-167 *)
  Definition bp_finish (b : bprover) : pproto F (list (list F)) :=
    put b <- finish_provers (bp_provers b) (bp_evals b) (bp_round b);
    match bp_provers b with
    | [] => PRet (Ok (bp_evals b))
    | _ => PRet Err
    end.

  (** lines 175-197 *)
  Fixpoint bp_rounds (n : nat) (b : bprover) (chal : list F) : pproto F (bprover * list F) :=
    match n with
    | O => PRet (Ok (b, chal))
    | S n' =>
      put b <- send_round_proof b;
      PSample (fun x =>
      put b <- PRet (receive_challenge b x);
      bp_rounds n' b (chal ++ [x]))
    end.

  Definition bp_run (b : bprover) : pproto F (list F * list (list F)) :=
    put r <- bp_rounds (bp_total_rounds b) b [];
    let '(b, chal) := r in
    put evals <- bp_finish b;
    PRet (Ok (chal, evals)).
End Model.

Arguments exec_all {_ _} _ _ _.
Arguments fold_all {_ _} _ _ _.
Arguments p_activate {_ _} _ _ _ _.
Arguments p_rounds {_ _} _ _ _ _ _.
Arguments send_evals {_ _} _ _.
Arguments batch_prove {_ _} _ _.
Arguments mkP {_ _} _ _ _.
Arguments bp_provers {_ _} _.
Arguments bp_evals {_ _} _.
Arguments bp_round {_ _} _.
Arguments bp_new_prebatched {_ _} _ _ _.
Arguments bp_new {_ _} _ _.
Arguments bp_total_rounds {_ _} _ _.
Arguments finish_provers {_ _} _ _ _ _.
Arguments send_round_proof {_ _} _ _.
Arguments receive_challenge {_ _} _ _ _.
Arguments bp_finish {_ _} _ _.
Arguments bp_rounds {_ _} _ _ _ _.
Arguments bp_run {_ _} _ _.
