(** Model of crates/core/src/constraint_system/verify.rs lines 73-241 and 579-668: the reductions of a constraint system,
    from its flushes, non-zero columns, exponentiations and table constraints to evaluation claims about committed
    columns, for the tower field of level [L].

    Simplifications: errors are not distinguished; [usize] is unbounded.  The sizes of the tables, which are the first
    message of the proof, and the oracles instantiated with them (oracle/symbolic.rs) are arguments.  The commitment is not a
    message here: it is what fixes the values of the committed columns.  What follows line 241 (ring switching and the
    polynomial commitment scheme) is not part of this model. *)
Require Import Coq.Arith.PeanoNat Coq.NArith.NArith Coq.Lists.List Coq.Bool.Bool.
From Verif Require Import Base.Fld Base.Lists Base.Sums Math.ArithModel Field.TowerProofs Transparent.TransparentModel Protocol.Proto
  Utils.SortModel Sumcheck.SumcheckModel Sumcheck.ZerocheckModel Gkr.ExpModel Cs.ChannelModel Evalcheck.OracleModel Evalcheck.EvalModel
  Evalcheck.GreedyModel Cs.FlushModel.
Import ListNotations.

Section Model.
  Variable L : nat.
  Notation F := (TF L).
  Notation claim := (EvalModel.claim L).
  Local Open Scope fld_scope.

  (** oracle/constraint.rs lines 17-33: a composition with the predicate [Zero] ([None]) or [Sum]; names left out *)
  Definition constraint : Type := (circuit F * option F)%type.
  (** lines 60-68: [ConstraintSet] *)
  Record table_constraints : Type := mkTc { tc_table : nat; tc_log_values_per_row : nat; tc_ids : list nat; tc_constraints : list constraint }.
  (** lines 41-58: [SizedConstraintSet] *)
  Record sized_set : Type := mkSized { sz_n : nat; sz_ids : list nat; sz_constraints : list constraint }.

  (** constraint_system/mod.rs lines 30-47, without the oracles *)
  Record system : Type := mkSystem {
    sys_tables : list table_constraints;
    sys_flushes : list (flush F);
    sys_non_zero : list nat;
    sys_channel_count : nat;
    sys_exponents : list (exp_spec F);
    sys_specs : list size_spec }.

  (** oracle/multilinear.rs lines 537-541 *)
  Definition is_zero_sized (os : oset L) (id : nat) : res bool :=
    match nth_error os id with Some None => Ok true | Some (Some _) => Ok false | None => Panic end.
  (** [Vec::retain] with a predicate that may panic *)
  Definition retain {A} (f : A -> res bool) (l : list A) : res (list A) :=
    try keep <- rmap f l; Ok (map snd (filter fst (combine keep l))).

  (** lines 103 and 104 *)
  Definition retain_non_zero (os : oset L) (ids : list nat) : res (list nat) :=
    retain (fun id => try z <- is_zero_sized os id; Ok (negb z)) ids.
  Definition retain_exponents (os : oset L) (es : list (exp_spec F)) : res (list (exp_spec F)) :=
    retain (fun e => try z <- is_zero_sized os (xp_result e); Ok (negb z)) es.

  (** lines 106-119 *)
  Definition size_constraints (sizes : list nat) (tcs : list table_constraints) : res (list sized_set) :=
    try l <- rmap (fun t => try n <- of_opt (nth_error sizes (tc_table t));
                            Ok (if (n =? 0)%nat then []
                                else [mkSized (tc_log_values_per_row t + log2_ceil n) (tc_ids t) (tc_constraints t)])) tcs;
    Ok (sort_by (fun a b => (sz_n a <=? sz_n b)%nat) (concat l)).

  (** lines 591-623: claims about composite oracles are grouped by their point *)
  Fixpoint add_at_point (p : list F) (ids : list nat) (c : circuit F) (e : F) (ms : list (list F * builder L)) : list (list F * builder L) :=
    match ms with
    | [] => [(p, add_sumcheck [] ids c e)]
    | (q, b) :: ms => if point_eqb q p then (q, add_sumcheck b ids c e) :: ms else (q, b) :: add_at_point p ids c e ms
    end.
  Fixpoint group_claims (os : oset L) (claims : list claim) (ms : list (list F * builder L)) : res (list claim * list (list F * builder L)) :=
    match claims with
    | [] => Ok ([], ms)
    | c :: claims =>
      try o <- oget os (c_id c);
      match o_variant o with
      | LinearCombination _ _ _ => try x <- group_claims os claims ms; Ok (c :: fst x, snd x)
      | Composite _ inner circ => group_claims os claims (add_at_point (c_point c) inner circ (EvalModel.c_eval c) ms)
      | _ => Panic
      end
    end.
  (** lines 579-668; lines 625-665 are those of [mlecheck_stage] (greedy_evalcheck/verify.rs lines 61-102): all the
      claims are made before the first check *)
  Definition reduce_flush_claims (os : oset L) (claims : list claim) : vproto F (list claim) :=
    get x <- VRet (group_claims os claims []);
    get y <- mlecheck_stage (set_mles (snd x) (vnew os));
    VRet (Ok (fst y ++ fst x)).

  (** sumcheck/oracles.rs lines 61-87 *)
  Definition zerocheck_claim (s : sized_set) : res (zclaim F * claim_meta) :=
    let n_multilinears := length (sz_ids s) in
    try zeros <- rmap (fun c => match snd c with None => circuit_comp n_multilinears (fst c) | Some _ => Err end) (sz_constraints s);
    try claim <- zclaim_new (sz_n s) n_multilinears zeros;
    Ok (claim, (sz_n s, sz_ids s)).

  (** lines 271-303: the number of rounds to skip *)
  Definition skip_rounds (domain_bits : nat) (claims : list (zclaim F)) : nat :=
    let max_n := fold_right Nat.max 0%nat (map zc_n claims) in
    let bits := map (fun c => (domain_bits - log2_ceil (z_degree c))%nat) claims in
    Nat.min (match bits with [] => 0%nat | b :: bs => fold_left Nat.min bs b end) max_n.

  Definition eval_claim (c : nat * list F * F) : claim := EvalModel.mkClaim (fst (fst c)) (snd (fst c)) (snd c).

  Variable u32 : F -> nat.
  (** the canonical basis, see ZerocheckModel.v, and [FDomain::N_BITS] *)
  Variable bc : nat -> option F.
  Variable domain_bits : nat.

  (** lines 211-240: the checks after the product phase; [split_off(flush_oracle_ids.len())] on line 213 leaves the claims
      about the [n_nz] columns that must not vanish *)
  Definition verify_claims (fuel n_nz : nat) (tables : list sized_set) (exp_claims : list (nat * list F * F))
    (prod : oset L * list (nat * list F * F)) : vproto F (list claim * oset L) :=
    let n_flush := (length (snd prod) - n_nz)%nat in
    get flush_claims <- reduce_flush_claims (fst prod) (map eval_claim (firstn n_flush (snd prod)));
    get zm <- VRet (rmap zerocheck_claim tables);
    get zout <- zerocheck_verify bc (map fst zm) (skip_rounds domain_bits (map fst zm));
    get zero_claims <- VRet (make_zerocheck_eval_claims (map snd zm) zout);
    greedy_verify u32 fuel (fst prod)
      (flush_claims ++ map eval_claim (skipn n_flush (snd prod)) ++ map eval_claim zero_claims ++ map eval_claim exp_claims).

  (** lines 73-240 *)
  Definition verify_reductions (fuel : nat) (sys : system) (os : oset L) (sizes : list nat) (boundaries : list (boundary F))
    : vproto F (list claim * oset L) :=
    get _ <- VRet (check_table_sizes (sys_specs sys) sizes);
    get non_zero <- VRet (retain_non_zero os (sys_non_zero sys));
    get exponents <- VRet (retain_exponents os (sys_exponents sys));
    get tables <- VRet (size_constraints sizes (sys_tables sys));
    get exp_claims <- exp_phase (n_vars_or0 os) exponents;
    get prod <- product_phase os (sys_flushes sys) non_zero (sys_specs sys) sizes (sys_channel_count sys) boundaries;
    verify_claims fuel (length non_zero) tables exp_claims prod.
End Model.
