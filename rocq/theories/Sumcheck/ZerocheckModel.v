(** Model of crates/core/src/protocols/sumcheck/zerocheck.rs, verify_zerocheck.rs and
    crates/core/src/composition/index.rs.

    The points of the univariate round are those of [BinarySubspace::<F::Canonical>::with_dim(_).isomorphic()]:
    [bc i] is the image in [F] of the [i]-th canonical basis element.  Sizes are unbounded numbers. *)
Require Import Coq.Arith.Arith Coq.Lists.List Coq.Bool.Bool.
From Verif Require Import Base.Fld Base.Lists Base.Sums Math.MleModel Math.UnivariateModel Ntt.SubspaceModel Protocol.Proto
  Sumcheck.SumcheckModel Sumcheck.EqIndModel.
Import ListNotations.

Section Model.
  Variable F : field.
  Local Open Scope fld_scope.

  (** index.rs lines 23-37 (new), 39-82: evaluation selects the queries; [expression] renames the variables,
      so the leading term and the used variables are those of the inner composition *)
  Definition index_comp (n : nat) (indices : list nat) (c : comp F) : res (comp F) :=
    if existsb (fun i => n <=? i)%nat indices then Err
    else Ok (mkComp n (c_deg c)
      (fun q => if negb (length q =? n)%nat then Err else c_eval c (map (fun i => nth i q 0) indices))
      (fun q => if negb (length q =? n)%nat then Err else c_lead c (map (fun i => nth i q 0) indices))
      (map (fun v => existsb (fun iu => (fst iu =? v)%nat && snd iu) (combine indices (c_used c))) (seq 0 n))).

  (** composition/product_composition.rs: [BivariateProduct] *)
  Definition bivariate_product : comp F :=
    mkComp 2 2 (fun q => match q with [x; y] => Ok (x * y) | _ => Err end)
               (fun q => match q with [x; y] => Ok (x * y) | _ => Err end) [true; true].

  (** zerocheck.rs lines 26-71 *)
  Record zclaim : Type := mkZ { zc_n : nat; zc_m : nat; zc_comps : list (comp F) }.
  Definition zclaim_new (n m : nat) (comps : list (comp F)) : res zclaim :=
    if existsb (fun c => negb (c_nv c =? m)%nat) comps then Err else Ok (mkZ n m comps).
  Definition z_degree (c : zclaim) : nat := fold_right Nat.max 0%nat (map (@c_deg F) (zc_comps c)).

  (** lines 121-134, verify_zerocheck.rs lines 20-33 *)
  Definition domain_size (degree skip : nat) : nat := (degree * 2 ^ skip)%nat.
  Definition extrapolated_scalars_count (degree skip : nat) : nat := ((degree - 1) * 2 ^ skip)%nat.

  (** lines 148-186 *)
  Definition reduce_to_eq_ind (skip : nat) (claims : list zclaim) : res (list (claim F)) :=
    if negb (is_sorted_ascending (map zc_n claims)) then Err
    else collect_res (map (fun c => eq_claim_new (zc_n c - skip) (zc_m c) (map (fun k => (k, 0)) (zc_comps c))) claims).

  (** lines 188-227; [IndexComposition::new(..).expect(..)] *)
  Definition reduction_claim (skip : nat) (evals : list (list F)) : res (claim F) :=
    let all := concat evals in
    let m := length all in
    try sums <- collect_res (map (fun ie => try c <- expect (index_comp (m + 1) [fst ie; m] bivariate_product); Ok (c, snd ie))
                                 (combine (seq 0 m) all));
    claim_new skip (m + 1) sums.

  (** [BinarySubspace::with_dim(dim)?.isomorphic().iter()] *)
  Definition sub_points (bc : nat -> option F) (dim : nat) : res (list F) :=
    try b <- sub_with_dim bc dim; Ok (sub_iter b).

  (** lines 295-318 with [P = F]; [log2_strict_usize] panics unless the length is a power of two *)
  Definition lagrange_mle (d : evdomain F) (z : F) : res (mlext F) :=
    try l <- of_opt (lagrange_evals d z);
    if is_pow2 (length l) then me_new 0 (Nat.log2 (length l)) l else Panic.

  (** lines 229-293 *)
  Definition verify_reduction_output (bc : nat -> option F) (c : claim F) (skip : nat) (z : F) (out : list F * list (list F))
      : res (list F * list (list F)) :=
    let '(chal, evals) := out in
    if negb (cl_n c =? skip)%nat then Err
    else if negb (length chal =? skip)%nat || negb (length evals =? 1)%nat then Err
    else
      try pts <- sub_points bc skip;
      try d <- from_points pts false;
      try m <- lagrange_mle d z;
      try q <- query_expand 0 chal;
      try expected <- me_evaluate 0 0 m q;
      match evals with
      | [] => Panic
      | e :: rest =>
        match rev e with
        | [] => Err
        | x :: _ => if negb (feqb x expected) then Err else Ok (chal, removelast e :: rest)
        end
      end.

  (** crates/utils/src/checked_arithmetics.rs lines 40-53 *)
  Definition min_bits (n : nat) : nat := match n with O => 0%nat | _ => S (Nat.log2 n) end.
  Definition log2_ceil (n : nat) : nat := min_bits (n - 1).

  (** lines 57-63 of verify_zerocheck.rs and 80-85 *)
  Definition max_domain_size (claims : list zclaim) (skip : nat) : nat :=
    fold_right Nat.max 0%nat (map (fun c => domain_size (z_degree c) skip) claims).

  (** verify_zerocheck.rs lines 54-171; the result is (skipped challenges, unskipped challenges, evaluations) *)
  Definition zerocheck_verify (bc : nat -> option F) (claims : list zclaim) (skip : nat) : vproto F (list F * list F * list F) :=
    if negb (is_sorted_ascending (map zc_n claims)) then VRet Err
    else
    let max_n := last (map zc_n claims) 0%nat in
    if (max_n <? skip)%nat then VRet Err
    else
    get eqc <- vsamples (max_n - skip);
    let size := max_domain_size claims skip in
    let zeros := Nat.min (2 ^ skip) size in
    get coeffs <- vsamples (length claims);
    get evals <- vread (size - zeros);
    get z <- vsample;
    get pts <- VRet (sub_points bc (log2_ceil size));
    get d <- VRet (from_points (firstn size pts) false);
    get lagr <- VRet (of_opt (lagrange_evals d z));
    if (length lagr <? zeros)%nat then VRet Panic
    else
    let sum := inner_product_unchecked evals (skipn zeros lagr) in
    get eqclaims <- VRet (reduce_to_eq_ind skip claims);
    get regular <- VRet (reduce_to_regular eqclaims);
    get v <- VRet (new_prebatched coeffs sum regular);
    get out <- bv_run v;
    get eqout <- VRet (verify_outputs AscendingVars eqclaims eqc (rev (fst out), snd out));
    get red <- VRet (reduction_claim skip (snd eqout));
    get v2 <- bv_new [red];
    get out2 <- bv_run v2;
    get rout <- VRet (verify_reduction_output bc red skip z (rev (fst out2), snd out2));
    match rev (snd rout) with
    | [] => VRet Panic
    | e :: _ => VRet (Ok (fst rout, fst eqout, e))
    end.

  (** oracles.rs lines 176-232: the evaluation claims (oracle, point, value); a meta is a number of variables and
      the oracles *)
  Definition make_zerocheck_eval_claims {Id} (metas : list (nat * list Id)) (out : list F * list F * list F)
      : res (list (Id * list F * F)) :=
    let '(skipped, unskipped, evals) := out in
    if negb (is_sorted_ascending (map fst metas)) then Err
    else
      let max_n := last (map fst metas) 0%nat in
      let ids := flat_map (fun m => map (fun id => (id, fst m)) (snd m)) metas in
      if negb (length ids =? length evals)%nat then Err
      else if negb (max_n =? length skipped + length unskipped)%nat then Err
      else Ok (map (fun ie => let '(id, n, e) := ie in
                 (id, firstn (Nat.min n (length skipped)) skipped ++ skipn (Nat.min (max_n - n) (length unskipped)) unskipped, e))
               (combine ids evals)).
End Model.

Arguments index_comp {_} _ _ _.
Arguments bivariate_product {_}.
Arguments mkZ {_} _ _ _.
Arguments zc_n {_} _.
Arguments zc_m {_} _.
Arguments zc_comps {_} _.
Arguments zclaim_new {_} _ _ _.
Arguments z_degree {_} _.
Arguments reduce_to_eq_ind {_} _ _.
Arguments reduction_claim {_} _ _.
Arguments sub_points {_} _ _.
Arguments lagrange_mle {_} _ _.
Arguments verify_reduction_output {_} _ _ _ _ _.
Arguments max_domain_size {_} _ _.
Arguments zerocheck_verify {_} _ _ _.
Arguments make_zerocheck_eval_claims {_ _} _ _.
