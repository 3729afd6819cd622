(** Model of the verifier of the polynomial IOP compiler and of the layout of the committed message:
    crates/core/src/piop/verify.rs 270-480 and piop/prove.rs 48-118.

    The FRI verifier is a parameter: any protocol that, from the commitments read and the challenges drawn, produces the
    value [fri_final].  The transcript reader is that of Protocol/Proto.v; a Merkle digest is [digest_len] elements.
    Sizes are unbounded numbers; packed fields are not modelled. *)
Require Import Coq.Arith.Arith Coq.Lists.List Coq.Bool.Bool.
From Verif Require Import Base.Fld Base.Lists Base.Sums Math.UnivariateModel Math.PiecewiseModel Protocol.Proto
  Sumcheck.SumcheckModel Sumcheck.ZerocheckModel Piop.MetaModel.
Import ListNotations.
Local Open Scope nat_scope.

Section Verify.
  Variable F : field.

  (** A transparent polynomial ([MultivariatePoly]): its number of variables and [evaluate]. *)
  Record transparent := mkTransparent { tr_n : nat; tr_eval : list F -> res F }.

  (** FRI parameters ([fri_params.fold_arities()]), digest length, [FRIVerifier::new(..)?.verify(..)] (verify.rs 462-469). *)
  Variables (arities : list nat) (digest_len : nat) (fri : list (list F) -> list F -> vproto F F).

  (** verify.rs 308-315: the descriptions with a committed multilinear, with their number of variables. *)
  Definition non_empty (ds : list (claim_desc F)) : list (nat * claim_desc F) :=
    filter (fun vd => c_lo F (snd vd) <? c_hi F (snd vd)) (combine (seq 0 (length ds)) ds).
  Definition n_committed (d : claim_desc F) : nat := c_hi F d - c_lo F d.
  Definition n_transparent (d : claim_desc F) : nat := t_hi F d - t_lo F d.

  (** The composite sums of a description (built at verify.rs 256-267) and the claim made of them (316-328). *)
  Definition composite (ps : product_sum F) : res (comp F * F) :=
    try c <- expect (index_comp (ps_n F ps) [ps_left F ps; ps_right F ps] (bivariate_product (F := F)));
    Ok (c, ps_sum F ps).
  Definition desc_claim (vd : nat * claim_desc F) : res (claim F) :=
    try cs <- collect_res (map composite (sums F (snd vd)));
    claim_new (fst vd) (n_committed (snd vd) + n_transparent (snd vd)) cs.

  (** The rounds of verify_interleaved_fri_sumcheck (verify.rs 424-453). *)
  Fixpoint interleaved (n round_no : nat) (next : option nat) (ars : list nat) (v : bverifier F) (chal : list F)
      (evals comms : list (list F)) : vproto F (bverifier F * list F * list (list F) * list (list F)) :=
    match n with
    | O => VRet (Ok (v, chal, evals, comms))
    | S n' =>
      get r <- finish_claims (S (length (v_claims v))) v evals;
      let '(v, evals) := r in
      get v <- receive_round_proof v;
      get challenge <- vsample;
      get v <- VRet (finish_round v challenge);
      if match next with Some r => r =? round_no + 1 | None => false end then
        get comm <- vread digest_len;
        interleaved n' (S round_no) (match ars with [] => None | a :: _ => Some (round_no + 1 + a) end) (tl ars)
          v (chal ++ [challenge]) evals (comms ++ [comm])
      else interleaved n' (S round_no) next ars v (chal ++ [challenge]) evals comms
    end.

  (** verify_interleaved_fri_sumcheck (verify.rs 400-476): challenges, claimed evaluations, [fri_final]. *)
  Definition verify_interleaved (n_rounds : nat) (claims : list (claim F)) : vproto F (list F * list (list F) * F) :=
    get v <- bv_new claims;
    get r <- interleaved n_rounds 0 (match arities with [] => None | a :: _ => Some a end) (tl arities) v [] [] [];
    let '(v, chal, evals, comms) := r in
    get r <- finish_claims (S (length (v_claims v))) v evals;
    let '(v, evals) := r in
    get _ <- VRet (bv_finish v);
    get final <- fri comms chal;
    VRet (Ok (chal, evals, final)).

  (** verify.rs 386-400: the transparent evaluations of one description, at [challenges_rev[n_challenges - n_vars..]]. *)
  Fixpoint check_transparents (n_vars : nat) (chal : list F) (claimed : list F) (ts : list transparent) : res unit :=
    match claimed, ts with
    | e :: claimed', t :: ts' =>
      if length chal <? n_vars then Panic
      else
        try computed <- tr_eval t (skipn (length chal - n_vars) (rev chal));
        if negb (feqb e computed) then Err else check_transparents n_vars chal claimed' ts'
    | _, _ => Ok tt
    end.

  (** verify_transparent_evals (verify.rs 366-405): the committed evaluations. *)
  Fixpoint verify_transparent_evals (descs : list (nat * claim_desc F)) (evals : list (list F)) (ts : list transparent)
      (chal : list F) : res (list F) :=
    match descs, evals with
    | (n_vars, d) :: descs', e :: evals' =>
      if length e <? n_committed d then Panic
      else if negb (length e - n_committed d =? n_transparent d) then Panic
      else if (t_hi F d <? t_lo F d) || (length ts <? t_hi F d) then Panic
      else
        try _ <- check_transparents n_vars chal (skipn (n_committed d) e) (firstn (n_transparent d) (skipn (t_lo F d) ts));
        try rest <- verify_transparent_evals descs' evals' ts chal;
        Ok (firstn (n_committed d) e ++ rest)
    | _, _ => Ok []
    end.

  (** verify (verify.rs 286-363).  The run also reports the challenges and [fri_final], which the code drops. *)
  Definition piop_verify (m : commit_meta) (ts : list transparent) (claims : list (piop_claim F)) : vproto F (list F * F) :=
    get ds <- VRet (make_sumcheck_claim_descs F m (map tr_n ts) claims);
    get cls <- VRet (collect_res (map desc_claim (non_empty ds)));
    get out <- verify_interleaved (total_vars m) cls;
    let '(chal, evals, final) := out in
    get committed <- VRet (verify_transparent_evals (non_empty ds) evals ts chal);
    get value <- VRet (evaluate_piecewise_multilinear chal (map n_committed ds) (rev committed));
    if negb (feqb value final) then VRet Err else VRet (Ok (chal, final)).

  (* ---------------------------------------------------------------- *)
  (** prove.rs 48-52: the lowest [n] bits of [x], reversed. *)
  Fixpoint reverse_bits (x n : nat) : nat :=
    match n with O => 0 | S n' => x mod 2 * 2 ^ n' + reverse_bits (x / 2) n' end.

  (** prove.rs 56-70: [checked_log_2] panics unless the length is a power of two. *)
  Definition reverse_index_bits (l : list F) : res (list F) :=
    if negb (length l =? 2 ^ Nat.log2 (length l)) then Panic
    else Ok (fold_left (fun s i =>
        let j := reverse_bits i (Nat.log2 (length l)) in
        if i <? j then upd (upd s i (nth j s f0)) j (nth i s f0) else s) (seq 0 (length l)) l).

  (** prove.rs 79-118 on scalars: [merge_multilins], last multilinear first, into a buffer of zeros of length [len].
      A multilinear is its list of scalars. *)
  Fixpoint merge_loop (len : nat) (ms : list (list F)) : res (list F) :=
    match ms with
    | [] => Ok (repeat f0 len)
    | e :: ms' =>
      if len <? length e then Panic
      else try chunk <- reverse_index_bits e; try rest <- merge_loop (len - length e) ms'; Ok (chunk ++ rest)
    end.
  Definition merge_multilins (len : nat) (ms : list (list F)) : res (list F) := merge_loop len (rev ms).
End Verify.

Arguments mkTransparent {_} _ _.
Arguments tr_n {_} _.
Arguments tr_eval {_} _ _.
Arguments non_empty {_} _.
Arguments n_committed {_} _.
Arguments n_transparent {_} _.
Arguments composite {_} _.
Arguments desc_claim {_} _.
Arguments interleaved {_} _ _ _ _ _ _ _ _ _.
Arguments verify_interleaved {_} _ _ _ _ _.
Arguments check_transparents {_} _ _ _ _.
Arguments verify_transparent_evals {_} _ _ _ _.
Arguments piop_verify {_} _ _ _ _ _ _.
Arguments reverse_index_bits {_} _.
Arguments merge_loop {_} _ _.
Arguments merge_multilins {_} _ _.
