(** Model of crates/core/src/protocols/greedy_evalcheck/verify.rs and of the conversions of constraint sets
    and of sumcheck outputs in crates/core/src/protocols/sumcheck/oracles.rs, for the tower field of level [L].

    Simplifications: constraint sets hold sum constraints only, as those that evalcheck builds do (the error
    for zero constraints is not modelled).  Errors are not distinguished.  The loop has a fuel argument; no
    run is cut off by a fuel above the work left ([greedy_fuel]). *)
Require Import Coq.Arith.PeanoNat Coq.Lists.List Coq.Bool.Bool.
From Verif Require Import Base.Fld Base.Lists Base.Sums Math.ArithModel Transparent.TransparentModel Field.TowerModel Field.TowerProofs Protocol.Proto
  Compute.CircuitPolyModel Sumcheck.SumcheckModel Sumcheck.EqIndModel Evalcheck.OracleModel Evalcheck.EvalModel.
Import ListNotations.

Section Model.
  Variable L : nat.
  Notation F := (TF L).
  Local Open Scope fld_scope.

  (** crates/fast_compute/src/arith_circuit.rs lines 245-311: [ArithCircuitPoly::with_n_vars] as a
      [CompositionPoly].  [expression] is the optimised circuit; variables beyond those it mentions are not used. *)
  Definition circuit_comp (n : nat) (c : circuit F) : res (comp F) :=
    try p <- poly_with_n_vars true n c;
    match degree (cp_expr p), leading_term (cp_expr p), vars_usage (cp_expr p) with
    | Some d, Some lt, Some used =>
      Ok (mkComp n d (poly_evaluate p)
            (fun q => if (length q =? n)%nat then match evaluate lt q with Some v => Ok v | None => Panic end else Err)
            (used ++ repeat false (n - length used)))
    | _, _, _ => Panic
    end.

  (** sumcheck/oracles.rs lines 27-30: [OracleClaimMeta], the number of variables and the oracles *)
  Definition claim_meta : Type := (nat * list nat)%type.

  (** lines 35-59 and 89-113 (the two differ in the type of the claim) *)
  Definition constraint_set_claim (s : cset L) : res (SumcheckModel.claim F * claim_meta) :=
    let n_multilinears := length (cs_ids s) in
    try sums <- rmap (fun c => try k <- circuit_comp n_multilinears (fst c); Ok (k, snd c)) (cs_constraints s);
    try claim <- claim_new (cs_nvars s) n_multilinears sums;
    Ok (claim, (cs_nvars s, cs_ids s)).

  (** lines 128-177: the loop over the metas and the evaluations *)
  Definition claims_of_set (o : order) (max_n_vars : nat) (challenges : list F) (me : claim_meta * list F) : res (list (EvalModel.claim L)) :=
    let '((n, ids), evals) := me in
    if negb (length ids =? length evals)%nat then Err
    else
      let point := match o with LowToHigh => firstn n challenges | HighToLow => skipn (max_n_vars - n) challenges end in
      Ok (map (fun ie => EvalModel.mkClaim (fst ie) point (snd ie)) (combine ids evals)).
  Definition make_eval_claims (o : order) (metas : list claim_meta) (out : list F * list (list F)) : res (list (EvalModel.claim L)) :=
    if negb (is_sorted_ascending (map fst metas)) then Err
    else
      let max_n_vars := last (map fst metas) 0%nat in
      if negb (length metas =? length (snd out))%nat then Err
      else if negb (max_n_vars =? length (fst out))%nat then Err
      else try cs <- rmap (claims_of_set o max_n_vars (fst out)) (combine metas (snd out)); Ok (concat cs).

  (** greedy_evalcheck/verify.rs lines 41-59 *)
  Definition sumcheck_stage (st : vstate L) : vproto F (list (EvalModel.claim L) * vstate L) :=
    get x <- VRet (take_new_sumcheck_constraints st);
    get cms <- VRet (rmap constraint_set_claim (fst x));
    match cms with
    | [] => VRet (Ok ([], snd x))
    | _ :: _ =>
      get v <- bv_new (map fst cms);
      get out <- bv_run v;
      get claims <- VRet (make_eval_claims HighToLow (map snd cms) (rev (fst out), snd out));
      VRet (Ok (claims, snd x))
    end.

  (** lines 74-101 *)
  Fixpoint mlecheck_loop (l : list (list F * (SumcheckModel.claim F * claim_meta))) : vproto F (list (EvalModel.claim L)) :=
    match l with
    | [] => VRet (Ok [])
    | (p, (c, m)) :: l =>
      get out <- eqind_verify HighToLow AscendingVars [c] p;
      get claims <- VRet (make_eval_claims HighToLow [m] out);
      get rest <- mlecheck_loop l;
      VRet (Ok (claims ++ rest))
    end.
  (** lines 61-102 *)
  Definition mlecheck_stage (st : vstate L) : vproto F (list (EvalModel.claim L) * vstate L) :=
    get x <- VRet (take_new_mlechecks_constraints st);
    get cms <- VRet (rmap (fun ps => constraint_set_claim (snd ps)) (fst x));
    get claims <- mlecheck_loop (combine (map fst (fst x)) cms);
    VRet (Ok (claims, snd x)).

  Variable u32 : F -> nat.

  (** lines 111-120; the oracle set is borrowed by the caller, who keeps the oracles added to it *)
  Definition greedy_finish (st : vstate L) : res (list (EvalModel.claim L) * oset L) :=
    try x <- take_new_sumcheck_constraints st;
    match fst x with
    | [] => Ok (st_committed (snd x), st_oracles (snd x))
    | _ :: _ => Err
    end.

  (** lines 38-109 *)
  Fixpoint greedy_loop (fuel : nat) (st : vstate L) : vproto F (list (EvalModel.claim L) * oset L) :=
    match fuel with
    | O => VRet Panic
    | S fuel =>
      get a <- sumcheck_stage st;
      get b <- mlecheck_stage (snd a);
      match fst a ++ fst b with
      | [] => VRet (greedy_finish (snd b))
      | claims =>
        get st <- EvalModel.verify u32 claims (snd b);
        greedy_loop fuel st
      end
    end.

  (** lines 24-121 *)
  Definition greedy_verify (fuel : nat) (os : oset L) (claims : list (EvalModel.claim L)) : vproto F (list (EvalModel.claim L) * oset L) :=
    get st <- EvalModel.verify u32 claims (vnew os);
    greedy_loop fuel st.
End Model.

Arguments circuit_comp {_} _ _.
Arguments constraint_set_claim {_} _.
Arguments claims_of_set {_} _ _ _ _.
Arguments make_eval_claims {_} _ _ _.
Arguments sumcheck_stage {_} _.
Arguments mlecheck_loop {_} _.
Arguments mlecheck_stage {_} _.
Arguments greedy_finish {_} _.
Arguments greedy_loop {_} _ _ _.
Arguments greedy_verify {_} _ _ _ _.
