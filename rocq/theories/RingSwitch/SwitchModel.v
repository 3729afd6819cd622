(** Model of crates/core/src/ring_switch/{eq_ind.rs, common.rs, verify.rs, prove.rs}. *)
Require Import Coq.Arith.Arith Coq.Lists.List Coq.Bool.Bool.
From Verif Require Import Base.Fld Base.Lists Base.Sums Math.MleModel Protocol.Proto Utils.SortModel Sumcheck.ZerocheckModel Compute.CpuModel RingSwitch.TensorModel.
Import ListNotations.
Local Open Scope nat_scope.

Section Switch.
  Variable F : field.
  (** F::TOWER_LEVEL *)
  Variable L : nat.
  (** The field as an extension of degree [2^kappa] of a subfield of the tower, for the degrees that are dispatched:
      [F::TOWER_LEVEL - kappa] is 0, 3, 4, 5, 6 or 7 (tower_tensor_algebra.rs 26-36, verify.rs 205-241, prove.rs 318-362).  None
      is Error::PackingDegreeNotSupported. *)
  Variable E : forall kappa, option (ext F kappa).
  Local Open Scope fld_scope.

  (** *** RingSwitchEqInd (eq_ind.rs 42-49); the type parameter FSub is the extension. *)
  Record eqind := mkEqInd { ei_kappa : nat; ei_ext : ext F ei_kappa; ei_z : list F; ei_coeffs : list F; ei_mix : F }.
  (** eq_ind.rs 62-81 *)
  Definition eqind_new (kappa : nat) (X : ext F kappa) (z coeffs : list F) (mix : F) : res eqind :=
    if (length coeffs <? 2 ^ kappa)%nat then Err else Ok (mkEqInd kappa X z coeffs mix).
  (** eq_ind.rs 169-176: one step of the fold *)
  Definition eqind_step (kappa : nat) (X : ext F kappa) (t : tensor F) (vert hztl : F) : res (tensor F) :=
    let vert_scaled := scale_vertical F t vert in
    try hztl_scaled <- scale_horizontal F kappa X t hztl;
    Ok (tadd F (tadd F t vert_scaled) hztl_scaled).
  Fixpoint eqind_fold (kappa : nat) (X : ext F kappa) (t : tensor F) (z q : list F) : res (tensor F) :=
    match z, q with
    | v :: z, h :: q => try t <- eqind_step kappa X t v h; eqind_fold kappa X t z q
    | _, _ => Ok t
    end.
  (** eq_ind.rs 158-181 *)
  Definition eqind_evaluate (a : eqind) (query : list F) : res F :=
    if negb (length query =? length (ei_z a))%nat then Err else
    try t <- eqind_fold (ei_kappa a) (ei_ext a) (from_vertical F (ei_kappa a) (ei_mix a)) (ei_z a) query;
    fold_vertical F (ei_kappa a) (ei_ext a) t (ei_coeffs a).

  (** The prover's table: precompute_values (83-121) puts the mixing coefficient in the first entry of a fresh buffer [buffer] and
      takes the first [2^kappa] row batching coefficients (slicing panics if there are fewer); multilinear_extension (123-148) expands
      the buffer and folds it as a vector of subfield elements.  [out] is the buffer for the result. *)
  Definition eqind_table (a : eqind) (buffer out : list F) : res (list F) :=
    if (length (ei_coeffs a) <? 2 ^ ei_kappa a)%nat then Panic else
    match buffer with
    | [] => Panic
    | _ :: rest =>
      try evals <- tensor_expand F 0 (ei_z a) (ei_mix a :: rest);
      fold_right_op F L (fun _ => to_bases F (ei_kappa a) (ei_ext a)) evals (L - ei_kappa a) (firstn (2 ^ ei_kappa a) (ei_coeffs a)) out
    end.

  (** *** The system of evaluation claims *)
  (** MultilinearPolyOracle (oracle/multilinear.rs 560-570), the parts used here; EvalcheckMultilinearClaim (evalcheck.rs). *)
  Record oracle := mkOracle { o_n_vars : nat; o_level : nat; o_committed : bool }.
  Record eclaim := mkClaim { ec_id : nat; ec_point : list F; ec_eval : F }.
  (** common.rs 20-62: prefixes; suffixes with kappa; claims with their committed index and suffix index; claim to prefix index *)
  Record system := mkSystem { prefix_descs : list (list F); suffix_descs : list (list F * nat);
    claim_descs : list (nat * nat * eclaim); claim_to_prefix : list nat }.

  Definition eqb_list (a b : list F) : bool := (length a =? length b)%nat && forallb (fun p => feqb (fst p) (snd p)) (combine a b).
  (** Iterator::position *)
  Fixpoint position {A} (p : A -> bool) (l : list A) : option nat :=
    match l with [] => None | x :: l => if p x then Some 0%nat else match position p l with Some i => Some (S i) | None => None end end.
  (** 175-184: prefix and suffix of a point *)
  Definition split_point (kappa : nat) (point : list F) : list F * list F :=
    if (length point <? kappa)%nat then (point ++ repeat 0 (kappa - length point), []) else (firstn kappa point, skipn kappa point).
  (** 186-195, 197-208: find or push *)
  Definition find_or_push {A} (eqb : A -> A -> bool) (l : list A) (x : A) : list A * nat :=
    match position (fun y => eqb y x) l with Some i => (l, i) | None => (l ++ [x], length l) end.
  (** 145-212 group_claims_by_eval_point.  Indexing the oracle set with an unknown id panics; a skipped oracle is [None]. *)
  Fixpoint group_claims (oracles : list (option oracle)) (claims : list eclaim) (ps : list (list F)) (ss : list (list F * nat)) : res (list (list F) * list nat * list (list F * nat) * list nat) :=
    match claims with
    | [] => Ok (ps, [], ss, [])
    | c :: claims =>
      match nth_error oracles (ec_id c) with
      | Some (Some o) =>
        if negb (o_committed o) then Err else
        if (L <? o_level o)%nat then Err else
        let kappa := (L - o_level o)%nat in
        let '(prefix, suffix) := split_point kappa (ec_point c) in
        let '(ps, p) := find_or_push eqb_list ps prefix in
        let '(ss, s) := find_or_push (fun a b => eqb_list (fst a) (fst b) && (snd a =? snd b)%nat) ss (suffix, kappa) in
        try g <- group_claims oracles claims ps ss;
        let '(ps, pi, ss, si) := g in Ok (ps, p :: pi, ss, s :: si)
      | _ => Panic
      end
    end.
  (** 82-99: the sort key *)
  Definition sort_key (oracles : list (option oracle)) (c : eclaim) : nat :=
    match nth_error oracles (ec_id c) with Some (Some o) => if o_committed o then (o_n_vars o + o_level o)%nat else 0%nat | _ => 0%nat end.
  (** 107-127: the claims with the index of their commitment; [index] is the sparse index *)
  Fixpoint make_descs (oracles : list (option oracle)) (index : nat -> option nat) (claims : list eclaim) (si : list nat) : res (list (nat * nat * eclaim)) :=
    match claims with
    | [] => Ok []
    | c :: claims =>
      match nth_error oracles (ec_id c) with
      | Some (Some o) =>
        if negb (o_committed o) then Err else
        match index (ec_id c) with
        | None => Err
        | Some k => match si with [] => Panic | s :: si => try r <- make_descs oracles index claims si; Ok ((k, s, c) :: r) end
        end
      | _ => Panic
      end
    end.
  (** 73-134 EvalClaimSystem::new; [sort_by_key] panics if the id of a claim is unknown, and so would the grouping *)
  Definition system_new (oracles : list (option oracle)) (index : nat -> option nat) (claims : list eclaim) : res system :=
    if negb (forallb (fun c => match nth_error oracles (ec_id c) with Some (Some _) => true | _ => false end) claims) then Panic else
    let claims := sort_by (fun a b => (sort_key oracles a <=? sort_key oracles b)%nat) claims in
    try g <- group_claims oracles claims [] [];
    let '(ps, pi, ss, si) := g in
    try descs <- make_descs oracles index claims si;
    Ok (mkSystem ps ss descs pi).
  (** 136-142 *)
  Definition max_claim_kappa (s : system) : nat := list_max (map (@length F) (prefix_descs s)).

  (** *** Verification *)
  (** MultilinearQuery::expand(..).into_expansion() *)
  Definition expand (challenges : list F) : res (list F) := try q <- query_expand 0 challenges; Ok (q_expanded q).
  (** verify.rs 150-184 *)
  Definition accumulate_by_prefix (evals : list F) (n : nat) (c2p : list nat) : res (list F) :=
    fold_left (fun acc p => try b <- acc; match nth_error b (snd p) with Some x => Ok (upd b (snd p) (x + fst p)) | None => Panic end) (combine evals c2p) (Ok (repeat 0 n)).
  Definition compute_mixed (evals : list F) (n : nat) (c2p : list nat) (mixing : list F) : res (list F) :=
    accumulate_by_prefix (map (fun p => fst p * snd p) (combine evals mixing)) n c2p.
  (** TowerTensorAlgebra (tower_tensor_algebra.rs 9-36) *)
  Record tten := mkTT { tt_kappa : nat; tt_ext : ext F tt_kappa; tt_elems : list F }.
  Definition tt_new (kappa : nat) (elems : list F) : res tten := match E kappa with Some X => Ok (mkTT kappa X (tnew F kappa elems)) | None => Err end.
  Definition tt_fold (t : tten) (coeffs : list F) : res F := fold_vertical F (tt_kappa t) (tt_ext t) (tt_elems t) coeffs.
  (** verify.rs 104-148; [None] in [expect] cannot be distinguished from its panic *)
  Definition expect {A} (r : res A) : res A := match r with Ok a => Ok a | _ => Panic end.
  Fixpoint receive_tensors (prefixes : list (list F)) (expected : list F) : vproto F (list tten) :=
    match prefixes, expected with
    | prefix :: prefixes, ex :: expected =>
      let kappa := length prefix in
      get elems <- vread (2 ^ kappa)%nat;
      get t <- VRet (tt_new kappa elems);
      get v <- VRet (try q <- query_expand 0 prefix; try m <- expect (me_new 0 kappa (tt_elems t)); expect (me_evaluate 0 0 m q));
      if feqb v ex then get ts <- receive_tensors prefixes expected; VRet (Ok (t :: ts)) else VRet Err
    | _, _ => VRet (Ok [])
    end.
  (** verify.rs 69-73 *)
  Fixpoint check_row_batched (expected : list F) (ts : list tten) (coeffs : list F) : res unit :=
    match expected, ts with
    | ex :: expected, t :: ts => try v <- tt_fold t coeffs; if feqb v ex then check_row_batched expected ts coeffs else Err
    | _, _ => Ok tt
    end.
  (** verify.rs 186-246 *)
  Definition make_eqind (ss : list (list F * nat)) (coeffs : list F) (d : nat * nat * eclaim) (mix : F) : res eqind :=
    match nth_error ss (snd (fst d)) with
    | None => Panic
    | Some (suffix, kappa) => match E kappa with None => Err | Some X => eqind_new kappa X suffix coeffs mix end
    end.
  Fixpoint make_eqinds (ss : list (list F * nat)) (coeffs : list F) (ds : list (nat * nat * eclaim)) (mixing : list F) : res (list eqind) :=
    match ds, mixing with
    | d :: ds, m :: mixing => try a <- make_eqind ss coeffs d m; try r <- make_eqinds ss coeffs ds mixing; Ok (a :: r)
    | _, _ => Ok []
    end.
  (** PIOPSumcheckClaim (piop/verify.rs) and ReducedClaim (verify.rs 26-30) *)
  Record scclaim := mkSc { sc_n_vars : nat; sc_committed : nat; sc_transparent : nat; sc_sum : F }.
  Record reduced := mkReduced { rc_transparents : list eqind; rc_claims : list scclaim }.
  Fixpoint make_claims (ss : list (list F * nat)) (i : nat) (ds : list (nat * nat * eclaim)) (evals : list F) : res (list scclaim) :=
    match ds, evals with
    | d :: ds, e :: evals =>
      match nth_error ss (snd (fst d)) with
      | None => Panic
      | Some (suffix, _) => try r <- make_claims ss (S i) ds evals; Ok (mkSc (length suffix) (fst (fst d)) i e :: r)
      end
    | _, _ => Ok []
    end.
  (** verify.rs 32-102 *)
  Definition rs_verify (s : system) : vproto F reduced :=
    let n := length (claim_descs s) in
    get mixing_challenges <- vsamples (log2_ceil n);
    get mixing <- VRet (expand mixing_challenges);
    get expected <- VRet (compute_mixed (map (fun d => ec_eval (snd d)) (claim_descs s)) (length (prefix_descs s)) (claim_to_prefix s) mixing);
    get ts <- receive_tensors (prefix_descs s) expected;
    get row_challenges <- vsamples (max_claim_kappa s);
    get coeffs <- VRet (expand row_challenges);
    get evals <- vread n;
    get mixed <- VRet (accumulate_by_prefix evals (length (prefix_descs s)) (claim_to_prefix s));
    get _ <- VRet (check_row_batched mixed ts coeffs);
    get eqs <- VRet (make_eqinds (suffix_descs s) coeffs (claim_descs s) mixing);
    get claims <- VRet (make_claims (suffix_descs s) 0 (claim_descs s) evals);
    VRet (Ok (mkReduced eqs claims)).

  (** *** The prover *)
  (** prove.rs 144-203 compute_partial_evals: [partial k suffix] are the evaluations of the partial evaluation at [suffix] of the
      high variables of the committed witness [k] (C06, evaluate_partial_high), [2^kappa] of them or fewer; they are cycled. *)
  Definition partial_elems (partial : nat -> list F -> list F) (ss : list (list F * nat)) (d : nat * nat * eclaim) : res tten :=
    match nth_error ss (snd (fst d)) with
    | None => Panic
    | Some (suffix, kappa) =>
      let pe := partial (fst (fst d)) suffix in
      let elems := firstn (Nat.min (2 ^ kappa) (length pe)) pe in
      let elems := if (length elems <? 2 ^ kappa)%nat then map (fun i => nth (i mod length elems) elems 0) (seq 0 (if length elems =? 0 then 0 else 2 ^ kappa)%nat) else elems in
      tt_new kappa elems
    end.
  (** 205-221 scale_tensor_elems *)
  Definition scale_elems (ts : list tten) (mixing : list F) : res (list tten) :=
    if (length mixing <? length ts)%nat then Panic else
    Ok (map (fun p => mkTT (tt_kappa (fst p)) (tt_ext (fst p)) (scale_vertical F (tt_elems (fst p)) (snd p))) (combine ts mixing)).
  (** 223-250 mix_tensor_elems_for_prefixes; add_assign fails if the levels differ (tower_tensor_algebra.rs 92-103) *)
  Definition tt_zero (kappa : nat) : res tten := match E kappa with Some X => Ok (mkTT kappa X (tzero F kappa)) | None => Err end.
  Definition mix_elems (ts : list tten) (prefixes : list (list F)) (c2p : list nat) : res (list tten) :=
    if negb (length ts =? length c2p)%nat then Panic else
    try zeros <- rmap (fun p => tt_zero (length p)) prefixes;
    fold_left (fun acc tp => try b <- acc;
      match nth_error b (snd tp) with
      | None => Panic
      | Some x => if (tt_kappa x =? tt_kappa (fst tp))%nat then Ok (upd b (snd tp) (mkTT (tt_kappa x) (tt_ext x) (tadd F (tt_elems x) (tt_elems (fst tp))))) else Err
      end) (combine ts c2p) (Ok zeros).
  (** 43-142; the tables of the transparents are those of [eqind_table], see above *)
  Fixpoint psend_all (ls : list (list F)) : pproto F unit := match ls with [] => PRet (Ok tt) | l :: ls => PSend l (psend_all ls) end.
  Definition rs_prove (s : system) (partial : nat -> list F -> list F) : pproto F reduced :=
    let n := length (claim_descs s) in
    put mixing_challenges <- psamples (log2_ceil n);
    put mixing <- PRet (expand mixing_challenges);
    put ts <- PRet (rmap (partial_elems partial (suffix_descs s)) (claim_descs s));
    put scaled <- PRet (scale_elems ts mixing);
    put mixed <- PRet (mix_elems scaled (prefix_descs s) (claim_to_prefix s));
    put _ <- psend_all (map tt_elems mixed);
    put row_challenges <- psamples (max_claim_kappa s);
    put coeffs <- PRet (expand row_challenges);
    put evals <- PRet (rmap (fun t => tt_fold t coeffs) scaled);
    put _ <- PSend evals (PRet (Ok tt));
    put eqs <- PRet (make_eqinds (suffix_descs s) coeffs (claim_descs s) mixing);
    put claims <- PRet (make_claims (suffix_descs s) 0 (claim_descs s) evals);
    PRet (Ok (mkReduced eqs claims)).
End Switch.

(** tower_tensor_algebra.rs 52-63 TowerTensorAlgebra::kappa: [L] is F::TOWER_LEVEL and [level] the tower level of the subfield of the
    variant, as passed to the constructors (26-36) *)
Definition tta_kappa (L level : nat) : option nat :=
  match level with
  | 0 => Some (L - 7)
  | 3 => Some (L - 4)
  | 4 => Some (L - 3)
  | 5 => Some (L - 2)
  | 6 => Some (L - 1)
  | 7 => Some (L - 0)
  | _ => None
  end.
