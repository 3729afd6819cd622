(** Model of the batched sumcheck verifiers and of the code they share with the provers:
    crates/core/src/protocols/sumcheck/{common,verify_sumcheck,front_loaded}.rs.

    Packed fields are not modelled here (the verifiers work on scalars). *)
Require Import Coq.Arith.Arith Coq.Lists.List Coq.Bool.Bool.
From Verif Require Import Base.Fld Base.Lists Base.Sums Math.MleModel Math.UnivariateModel Protocol.Proto.
Import ListNotations.

(** crates/math/src/multilinear.rs / crates/math/src/fold.rs: [EvaluationOrder] *)
Inductive order : Type := LowToHigh | HighToLow.
Definition order_eqb (a b : order) : bool :=
  match a, b with LowToHigh, LowToHigh | HighToLow, HighToLow => true | _, _ => false end.

(** crates/utils/src/sorting.rs lines 6-8: [is_sorted_ascending] *)
Fixpoint is_sorted_ascending (l : list nat) : bool :=
  match l with
  | a :: ((b :: _) as l') => negb (b <? a)%nat && is_sorted_ascending l'
  | _ => true
  end.

Section Model.
  Variable F : field.
  Local Open Scope fld_scope.

  (** The trait [CompositionPoly] (crates/math/src/composition_poly.rs lines 11-40): [n_vars],
      [degree], [evaluate], the evaluation of [expression().leading_term()], which the provers
      use at the point at infinity, and [expression().vars_usage()]. *)
  Record comp : Type := mkComp
    { c_nv : nat; c_deg : nat; c_eval : list F -> res F; c_lead : list F -> res F; c_used : list bool }.

  (** common.rs lines 22-76 *)
  Record claim : Type := mkClaim { cl_n : nat; cl_m : nat; cl_sums : list (comp * F) }.

  Definition claim_new (n m : nat) (sums : list (comp * F)) : res claim :=
    if existsb (fun cs => negb (c_nv (fst cs) =? m)%nat) sums then Err else Ok (mkClaim n m sums).

  (** lines 78-85 *)
  Definition max_individual_degree (c : claim) : nat :=
    fold_right Nat.max 0%nat (map (fun cs => c_deg (fst cs)) (cl_sums c)).

  (** [RoundCoeffs]: lines 100-104 (truncate), 118-128 (add_assign), 139-145 (mul_assign) *)
  Definition rc_truncate (c : list F) : list F := removelast c.
  Fixpoint zip_add (l r : list F) : list F :=
    match l, r with
    | a :: l', b :: r' => (a + b) :: zip_add l' r'
    | _, _ => l
    end.
  Definition rc_add (l r : list F) : list F :=
    zip_add (if (length l <? length r)%nat then l ++ repeat 0 (length r - length l) else l) r.
  Definition rc_mul (c : list F) (k : F) : list F := map (fun a => a * k) c.

  (** [RoundProof::recover], lines 181-187 *)
  Definition recover (coeffs : list F) (sum : F) : list F :=
    let first := match coeffs with [] => 0 | a :: _ => a end in
    let last := sum - first - fold_left fadd coeffs 0 in
    coeffs ++ [last].

  (** [batch_weighted_value], lines 292-296, with [powers] and [inner_product_unchecked] of
      crates/field/src/util.rs lines 11-20, 84-86 *)
  Definition batch_weighted_value (coeff : F) (values : list F) : F :=
    coeff * inner_product_unchecked (powers_from 1 coeff (length values)) values.

  Definition claim_sum (coeff : F) (c : claim) : F := batch_weighted_value coeff (map snd (cl_sums c)).

  (** verify_sumcheck.rs lines 128-143 *)
  Definition expected_single (coeff : F) (c : claim) (evals : list F) : res F :=
    try vs <- collect_res (map (fun cs => c_eval (fst cs) evals) (cl_sums c));
    Ok (batch_weighted_value coeff vs).

  (** lines 145-163 *)
  Fixpoint expected_multi (coeffs : list F) (claims : list claim) (evals : list (list F)) : res F :=
    match coeffs, claims, evals with
    | a :: coeffs', c :: claims', e :: evals' =>
      try v <- expected_single a c e;
      try rest <- expected_multi coeffs' claims' evals';
      Ok (v + rest)
    | _, _, _ => Ok 0
    end.

  (** lines 165-168 *)
  Definition interpolate_round_proof (coeffs : list F) (sum challenge : F) : F :=
    evaluate_univariate (recover coeffs sum) challenge.

  (** State of the loop of [batch_verify]: claims not yet active, coefficients of the active ones,
      challenges, running sum, largest degree of an active claim. *)
  Record bstate : Type := mkB
    { b_pending : list claim; b_coeffs : list F; b_chal : list F; b_sum : F; b_deg : nat }.

  (** lines 60-82: the inner [while let] *)
  Fixpoint activate (n : nat) (pending : list claim) (coeffs chal : list F) (sum : F) (deg : nat)
    : vproto F bstate :=
    match pending with
    | [] => VRet (Ok (mkB [] coeffs chal sum deg))
    | c :: pending' =>
      if negb (cl_n c =? n)%nat then VRet (Ok (mkB pending coeffs chal sum deg))
      else VSample (fun a => activate n pending' (coeffs ++ [a]) chal (sum + claim_sum a c)
                                      (Nat.max deg (max_individual_degree c)))
    end.

  (** lines 56-92: one iteration per remaining variable [n] *)
  Fixpoint rounds (n : nat) (st : bstate) : vproto F bstate :=
    match n with
    | O => VRet (Ok st)
    | S n' =>
      get st <- activate n (b_pending st) (b_coeffs st) (b_chal st) (b_sum st) (b_deg st);
      get coeffs <- vread (b_deg st);
      get challenge <- vsample;
      rounds n' (mkB (b_pending st) (b_coeffs st) (b_chal st ++ [challenge])
                     (interpolate_round_proof coeffs (b_sum st) challenge) (b_deg st))
    end.

  (** lines 94-111 *)
  Fixpoint activate_rest (pending : list claim) (coeffs : list F) (sum : F) : vproto F (list F * F) :=
    match pending with
    | [] => VRet (Ok (coeffs, sum))
    | c :: pending' => VSample (fun a => activate_rest pending' (coeffs ++ [a]) (sum + claim_sum a c))
    end.

  (** lines 113-118 *)
  Fixpoint read_evals (claims : list claim) : vproto F (list (list F)) :=
    match claims with
    | [] => VRet (Ok [])
    | c :: claims' => get e <- vread (cl_m c); get es <- read_evals claims'; VRet (Ok (e :: es))
    end.

  (** lines 31-126 *)
  Definition batch_verify (o : order) (claims : list claim) : vproto F (list F * list (list F)) :=
    if negb (is_sorted_ascending (rev (map cl_n claims))) then VRet Err
    else
      let n_rounds := fold_right Nat.max 0%nat (map cl_n claims) in
      get st <- rounds n_rounds (mkB claims [] [] 0 0);
      get cs <- activate_rest (b_pending st) (b_coeffs st) (b_sum st);
      let '(coeffs, sum) := cs in
      get evals <- read_evals claims;
      get expected <- VRet (expected_multi coeffs claims evals);
      if negb (feqb sum expected) then VRet Err
      else VRet (Ok (match o with HighToLow => rev (b_chal st) | LowToHigh => b_chal st end, evals)).

  (* ---------------------------------------------------------------- *)
  (** front_loaded.rs *)

  (** lines 22-26 *)
  Inductive coeffs_or_sum : Type := Coeffs (c : list F) | SumV (s : F).

  (** lines 54-59, 326-331: a claim with its batching coefficient and [max_degree_remaining] *)
  Record bverifier : Type := mkV
    { v_claims : list (claim * F * nat); v_round : nat; v_last : coeffs_or_sum }.

  (** lines 128-135: suffix maxima of the degrees *)
  Fixpoint with_degrees (claims : list claim) (coeffs : list F) : list (claim * F * nat) :=
    match claims, coeffs with
    | c :: claims', a :: coeffs' =>
      let rest := with_degrees claims' coeffs' in
      let d := max_individual_degree c in
      (c, a, match rest with [] => d | (_, _, d') :: _ => Nat.max d d' end) :: rest
    | _, _ => []
    end.

  (** lines 99-142 *)
  Definition new_prebatched (coeffs : list F) (sum : F) (claims : list claim) : res bverifier :=
    if negb (is_sorted_ascending (map cl_n claims)) then Err
    else if negb (length coeffs =? length claims)%nat then Err
    else Ok (mkV (with_degrees claims coeffs) 0 (SumV sum)).

  (** lines 66-97 *)
  Definition bv_new (claims : list claim) : vproto F bverifier :=
    get coeffs <- vsamples (length claims);
    let sum := fold_left fadd (map (fun ca => claim_sum (snd ca) (fst ca)) (combine claims coeffs)) 0 in
    VRet (new_prebatched coeffs sum claims).

  (** lines 144-155 *)
  Definition total_rounds (v : bverifier) : nat :=
    match rev (v_claims v) with [] => O | (c, _, _) :: _ => cl_n c end.
  Definition remaining_claims (v : bverifier) : nat := length (v_claims v).

  (** lines 157-204; [unreachable!] is [Panic] *)
  Definition try_finish_claim (v : bverifier) : vproto F (option (list F) * bverifier) :=
    match v_claims v with
    | [] => VRet (Ok (None, v))
    | (c, a, _) :: rest =>
      match (cl_n c ?= v_round v)%nat with
      | Eq =>
        get evals <- vread (cl_m c);
        match v_last v with
        | Coeffs _ => VRet Err
        | SumV sum =>
          get expected <- VRet (expected_single a c evals);
          VRet (Ok (Some evals, mkV rest (v_round v) (SumV (sum - expected))))
        end
      | Lt => VRet Panic
      | Gt => VRet (Ok (None, v))
      end
    end.

  (** lines 206-240 *)
  Definition receive_round_proof (v : bverifier) : vproto F bverifier :=
    match v_last v with
    | Coeffs _ => VRet Err
    | SumV sum =>
      match v_claims v with
      | (c, _, d) :: _ =>
        if (cl_n c =? v_round v)%nat then VRet Err
        else get coeffs <- vread d; VRet (Ok (mkV (v_claims v) (v_round v) (Coeffs (recover coeffs sum))))
      | [] => get coeffs <- vread 0; VRet (Ok (mkV (v_claims v) (v_round v) (Coeffs (recover coeffs sum))))
      end
    end.

  (** lines 242-253 *)
  Definition finish_round (v : bverifier) (challenge : F) : res bverifier :=
    match v_last v with
    | Coeffs c => Ok (mkV (v_claims v) (S (v_round v)) (SumV (evaluate_univariate c challenge)))
    | SumV _ => Err
    end.

  (** lines 255-270 *)
  Definition bv_finish (v : bverifier) : res unit :=
    match v_claims v with
    | _ :: _ => Err
    | [] => match v_last v with
            | Coeffs _ => Err
            | SumV sum => if negb (feqb sum 0) then Err else Ok tt
            end
    end.

  (** lines 286-288, 301-303: [while let Some(evals) = self.try_finish_claim(..)?].  Each success
      removes a claim, so at most [length claims + 1] iterations happen. *)
  Fixpoint finish_claims (fuel : nat) (v : bverifier) (evals : list (list F))
    : vproto F (bverifier * list (list F)) :=
    match fuel with
    | O => VRet Panic
    | S fuel' =>
      get r <- try_finish_claim v;
      match r with
      | (Some e, v') => finish_claims fuel' v' (evals ++ [e])
      | (None, v') => VRet (Ok (v', evals))
      end
    end.

  (** lines 272-312 *)
  Fixpoint run_rounds (n : nat) (v : bverifier) (chal : list F) (evals : list (list F))
    : vproto F (bverifier * list F * list (list F)) :=
    match n with
    | O => VRet (Ok (v, chal, evals))
    | S n' =>
      get r <- finish_claims (S (length (v_claims v))) v evals;
      let '(v, evals) := r in
      get v <- receive_round_proof v;
      get challenge <- vsample;
      get v <- VRet (finish_round v challenge);
      run_rounds n' v (chal ++ [challenge]) evals
    end.

  Definition bv_run (v : bverifier) : vproto F (list F * list (list F)) :=
    get r <- run_rounds (total_rounds v) v [] [];
    let '(v, chal, evals) := r in
    get r <- finish_claims (S (length (v_claims v))) v evals;
    let '(v, evals) := r in
    get _ <- VRet (bv_finish v);
    VRet (Ok (chal, evals)).
End Model.

Arguments mkComp {_} _ _ _ _ _.
Arguments c_nv {_} _.
Arguments c_deg {_} _.
Arguments c_eval {_} _ _.
Arguments c_lead {_} _ _.
Arguments c_used {_} _.
Arguments mkClaim {_} _ _ _.
Arguments cl_n {_} _.
Arguments cl_m {_} _.
Arguments cl_sums {_} _.
Arguments claim_new {_} _ _ _.
Arguments max_individual_degree {_} _.
Arguments rc_truncate {_} _.
Arguments zip_add {_} _ _.
Arguments rc_add {_} _ _.
Arguments rc_mul {_} _ _.
Arguments recover {_} _ _.
Arguments batch_weighted_value {_} _ _.
Arguments claim_sum {_} _ _.
Arguments expected_single {_} _ _ _.
Arguments expected_multi {_} _ _ _.
Arguments interpolate_round_proof {_} _ _ _.
Arguments mkB {_} _ _ _ _ _.
Arguments b_pending {_} _.
Arguments b_coeffs {_} _.
Arguments b_chal {_} _.
Arguments b_sum {_} _.
Arguments b_deg {_} _.
Arguments activate {_} _ _ _ _ _ _.
Arguments rounds {_} _ _.
Arguments activate_rest {_} _ _ _.
Arguments read_evals {_} _.
Arguments batch_verify {_} _ _.
Arguments Coeffs {_} _.
Arguments SumV {_} _.
Arguments mkV {_} _ _ _.
Arguments v_claims {_} _.
Arguments v_round {_} _.
Arguments v_last {_} _.
Arguments with_degrees {_} _ _.
Arguments new_prebatched {_} _ _ _.
Arguments bv_new {_} _.
Arguments total_rounds {_} _.
Arguments remaining_claims {_} _.
Arguments try_finish_claim {_} _.
Arguments receive_round_proof {_} _.
Arguments finish_round {_} _ _.
Arguments bv_finish {_} _.
Arguments finish_claims {_} _ _ _.
Arguments run_rounds {_} _ _ _ _.
Arguments bv_run {_} _.
