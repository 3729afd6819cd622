(** Model of crates/core/src/protocols/sumcheck/eq_ind.rs (claims, reduction and check of outputs) and of
    [eq] in crates/field/src/util.rs. *)
Require Import Coq.Arith.Arith Coq.Lists.List Coq.Bool.Bool.
From Verif Require Import Base.Fld Base.Lists Base.Sums Math.UnivariateModel Protocol.Proto Sumcheck.SumcheckModel.
Import ListNotations.

Section Model.
  Variable F : field.
  Local Open Scope fld_scope.

  (** util.rs lines 74-81; the test of the characteristic is a compile-time constant *)
  Definition eq_fn (x y : F) : F :=
    if feqb ((1 : F) + 1) 0 then x + y + 1 else x * y + (1 - x) * (1 - y).

  (** eq_ind.rs lines 183-223: [ExtraProduct].  [expression] is the product of the inner expression with
      the last variable, so its leading term is the product of the inner leading term with it. *)
  Definition extra_product (c : comp F) : comp F :=
    let n := c_nv c in
    mkComp (n + 1) (c_deg c + 1)
      (fun q => if negb (length q =? n + 1)%nat then Err
                else try v <- c_eval c (firstn n q); try x <- of_opt (nth_error q n); Ok (v * x))
      (fun q => if negb (length q =? n + 1)%nat then Err
                else try v <- c_lead c (firstn n q); try x <- of_opt (nth_error q n); Ok (v * x))
      (c_used c ++ [true]).

  (** lines 31-58: [EqIndSumcheckClaim::new]; the record has the same fields as a sumcheck claim *)
  Definition eq_claim_new (n m : nat) (sums : list (comp F * F)) : res (claim F) := claim_new n m sums.

  (** lines 73-103 *)
  Definition reduce_to_regular (claims : list (claim F)) : res (list (claim F)) :=
    collect_res (map (fun c => claim_new (cl_n c) (cl_m c + 1) (map (fun cs => (extra_product (fst cs), snd cs)) (cl_sums c))) claims).

  (** lines 105-109 *)
  Inductive sorting : Type := AscendingVars | DescendingVars.

  (** lines 153-161: the [while] loop; [fuel] bounds the number of iterations *)
  Fixpoint advance (fuel : nat) (n : nat) (chal eqc : list F) (st : F * nat) : res (F * nat) :=
    let '(e, last) := st in
    if (last <? n)%nat && (last <? length chal)%nat then
      match fuel with
      | O => Panic
      | S fuel' =>
        try c <- of_opt (nth_error chal (length chal - 1 - last));
        try r <- of_opt (nth_error eqc (length eqc - 1 - last));
        advance fuel' n chal eqc (e * eq_fn c r, S last)
      end
    else Ok (e, last).

  (** lines 144-170: the loop over the claims in ascending order; the popped evaluations in that order *)
  Fixpoint outputs_loop (chal eqc : list F) (st : F * nat) (l : list (claim F * list F)) : res (list (list F)) :=
    match l with
    | [] => Ok []
    | (c, evals) :: l' =>
      if negb (cl_m c + 1 =? length evals)%nat then Err
      else if (cl_n c <? snd st)%nat then Err
      else
        try st' <- advance (length chal) (cl_n c) chal eqc st;
        if negb (feqb (fst st') (last evals 0)) then Err
        else try rest <- outputs_loop chal eqc st' l'; Ok (removelast evals :: rest)
    end.

  (** lines 119-181 *)
  Definition verify_outputs (s : sorting) (claims : list (claim F)) (eqc : list F) (out : list F * list (list F))
      : res (list F * list (list F)) :=
    let '(chal, evals) := out in
    if negb (length evals =? length claims)%nat then Err
    else
      let l := combine claims evals in
      let ordered := match s with AscendingVars => l | DescendingVars => rev l end in
      if negb (length eqc =? length chal)%nat then Err
      else
        try r <- outputs_loop chal eqc (1, 0%nat) ordered;
        Ok (chal, match s with AscendingVars => r | DescendingVars => rev r end).

  (** The sequence by which the callers verify eq-ind claims: greedy_evalcheck/verify.rs lines 76-94 and
      constraint_system/verify.rs lines 640-658 (high to low, ascending), gkr_gpa/verify.rs lines 147-167
      (either order, descending, one claim). *)
  Definition eqind_verify (o : order) (s : sorting) (claims : list (claim F)) (eqc : list F) : vproto F (list F * list (list F)) :=
    get regular <- VRet (reduce_to_regular claims);
    get v <- bv_new regular;
    get out <- bv_run v;
    VRet (verify_outputs s claims eqc (match o with HighToLow => (rev (fst out), snd out) | LowToHigh => out end)).
End Model.

Arguments eq_fn {_} _ _.
Arguments extra_product {_} _.
Arguments eq_claim_new {_} _ _ _.
Arguments reduce_to_regular {_} _.
Arguments advance {_} _ _ _ _ _.
Arguments outputs_loop {_} _ _ _ _.
Arguments verify_outputs {_} _ _ _ _.
Arguments eqind_verify {_} _ _ _ _.
