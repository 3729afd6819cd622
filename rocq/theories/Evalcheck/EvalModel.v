(** Model of crates/core/src/protocols/evalcheck/verify.rs and of the parts of subclaims.rs and
    evalcheck.rs the verifier uses, for the tower field of level [L].

    Simplifications: [EvalPoint] (a shared slice) is a list.  Messages are field elements, as in
    Protocol/Proto.v; a 32-bit integer is read as one message and decoded by a function [u32] that is
    a parameter of the model.  Error values are not distinguished.  The recursion over oracles has a
    fuel argument: running out of it stands for the unbounded recursion of the code on an oracle that
    refers to itself or to a later oracle (no constructor of oracle sets produces one). *)
Require Import Coq.Arith.PeanoNat Coq.Lists.List Coq.Bool.Bool.
From Verif Require Import Base.Fld Base.Lists Base.Sums Math.MleModel Math.ArithModel Field.TowerModel Field.TowerProofs
  Transparent.TransparentModel Transparent.ShiftModel Protocol.Proto Evalcheck.OracleModel.
Import ListNotations.

Section Model.
  Variable L : nat.
  Notation F := (TF L).
  Variable u32 : F -> nat.
  Local Open Scope fld_scope.

  (** evalcheck.rs lines 18-27 *)
  Record claim : Type := mkClaim { c_id : nat; c_point : list F; c_eval : F }.

  Fixpoint point_eqb (p q : list F) : bool :=
    match p, q with
    | [], [] => true
    | x :: p, y :: q => feqb x y && point_eqb p q
    | _, _ => false
    end.
  Definition claim_eqb (c d : claim) : bool :=
    (c_id c =? c_id d)%nat && point_eqb (c_point c) (c_point d) && feqb (c_eval c) (c_eval d).

  (** verify.rs lines 30-56 *)
  Record vstate : Type := mkSt {
    st_oracles : oset L;
    st_committed : list claim;
    st_sums : list (builder L);
    st_mles : list (list F * builder L);
    st_round : list claim }.

  (** lines 62-70 *)
  Definition vnew (os : oset L) : vstate := mkSt os [] [] [] [].

  Definition set_oracles os st := mkSt os (st_committed st) (st_sums st) (st_mles st) (st_round st).
  Definition set_sums s st := mkSt (st_oracles st) (st_committed st) s (st_mles st) (st_round st).
  Definition set_mles s st := mkSt (st_oracles st) (st_committed st) (st_sums st) s (st_round st).
  Definition set_round s st := mkSt (st_oracles st) (st_committed st) (st_sums st) (st_mles st) s.
  Definition push_committed c st :=
    mkSt (st_oracles st) (st_committed st ++ [c]) (st_sums st) (st_mles st) (st_round st).

  (** [transcript.message().read::<u32>()] *)
  Definition read_u32 : vproto F nat := VRead 1 (fun l => VRet (Ok (u32 (hd 0 l)))).
  (** [transcript.message().read_scalar()] *)
  Definition read_scalar : vproto F F := VRead 1 (fun l => VRet (Ok (hd 0 l))).

  (** evalcheck.rs lines 53-58 and 87-105; 42-47 and 60-69 for the tags *)
  Inductive hint : Type := NewClaim | DuplicateClaim (index : nat).
  Definition read_hint : vproto F hint :=
    get t <- read_u32;
    match t with
    | 1%nat => VRet (Ok NewClaim)
    | 2%nat => get i <- read_u32; VRet (Ok (DuplicateClaim i))
    | _ => VRet Err
    end.

  (* ------------------------------------------------------------------ *)
  (** * subclaims.rs *)

  (** lines 206-221: the oracle of the projected inner polynomial and that of the multiplier *)
  Definition meta := (nat * nat)%type.

  (** lines 223-254 *)
  Definition projected_bivariate_meta (os : oset L) (inner_id projected_n_vars : nat) (eval_point : list F)
    (ctr : list F -> res (mvpoly F * nat)) : res (oset L * meta) :=
    try inner <- oget os inner_id;
    try x <-
      (if (projected_n_vars <? o_nvars inner)%nat then
         if (length eval_point <? projected_n_vars)%nat then Panic
         else
           try y <- add_projected_last_vars os inner_id (skipn projected_n_vars eval_point);
           Ok (fst y, firstn projected_n_vars eval_point, snd y)
       else Ok (os, eval_point, inner_id));
    let '(os, projected_eval_point, id) := x in
    try m <- ctr projected_eval_point;
    try y <- add_transparent os (fst m) (snd m);
    Ok (fst y, (id, snd y)).

  (** lines 52-72; the tower level of the indicator is shift_ind.rs line 202 *)
  Definition shifted_sumcheck_meta (os : oset L) (id offset block_size : nat) (sv : shift_variant) (eval_point : list F) :
    res (oset L * meta) :=
    projected_bivariate_meta os id block_size eval_point
      (fun p => try s <- shift_new block_size offset sv p; Ok (mkMv block_size (shift_evaluate s), L)).

  (** lines 115-132; the tower level of the basis is tower_basis.rs line 105 *)
  Definition packed_sumcheck_meta (os : oset L) (id log_degree : nat) (eval_point : list F) : res (oset L * meta) :=
    try n_vars <- n_vars_of os id;
    try level <- level_of os id;
    if (n_vars <? log_degree)%nat then Err
    else projected_bivariate_meta os id 0 eval_point
      (fun _ => try s <- tower_basis_new L log_degree level; Ok (tower_basis_poly L s, (level + log_degree)%nat)).

  (** lines 134-145; the conversion of the expression [Var(0) * Var(1)] to a circuit *)
  Definition bivariate_product : circuit F := [SVar 0; SVar 1; SMul 0 1].
  Definition add_bivariate_sumcheck (m : meta) (builders : list (builder L)) (n_vars : nat) (eval : F) : list (builder L) :=
    let builders := builders ++ repeat [] (S n_vars - length builders) in
    upd builders n_vars (add_sumcheck (nth n_vars builders []) [fst m; snd m] bivariate_product eval).

  (** lines 147-167 *)
  Definition add_composite_sumcheck (position : nat) (eval_point : list F) (builders : list (list F * builder L))
    (inner : list nat) (c : circuit F) (eval : F) : list (list F * builder L) :=
    match nth_error builders position with
    | Some (p, b) => upd builders position (p, add_sumcheck b inner c eval)
    | None => builders ++ [(eval_point, add_sumcheck [] inner c eval)]
    end.

  (* ------------------------------------------------------------------ *)
  (** * verify.rs *)

  (** lines 254-255: [inner_product_unchecked] *)
  Definition weighted (evals coeffs : list F) : F :=
    fold_right (fun x acc => fst x * snd x + acc) 0 (combine evals coeffs).

  Section Variants.
    (** the recursive call of [verify_multilinear_skip_duplicate_check] *)
    Variable rec : claim -> vstate -> vproto F vstate.

    (** lines 121-140 *)
    Definition verify_multilinear (c : claim) (st : vstate) : vproto F vstate :=
      get h <- read_hint;
      match h with
      | DuplicateClaim i =>
        match nth_error (st_round st) i with
        | Some d => if claim_eqb d c then VRet (Ok st) else VRet Err
        | None => VRet Err
        end
      | NewClaim => rec c st
      end.

    (** lines 319-351: [self.round_claims\[index\]] is not checked *)
    Definition verify_subclaim (id : nat) (point : list F) (st : vstate) : vproto F (F * vstate) :=
      get h <- read_hint;
      match h with
      | DuplicateClaim i =>
        match nth_error (st_round st) i with
        | Some d => if negb (c_id d =? id)%nat || negb (point_eqb (c_point d) point) then VRet Err
                    else VRet (Ok (c_eval d, st))
        | None => VRet Panic
        end
      | NewClaim =>
        get eval <- read_scalar;
        get st <- rec (mkClaim id point eval) st;
        VRet (Ok (eval, st))
      end.

    (** lines 242-252 *)
    Fixpoint verify_subclaims (ids : list nat) (point : list F) (st : vstate) : vproto F (list F * vstate) :=
      match ids with
      | [] => VRet (Ok ([], st))
      | id :: ids =>
        get x <- verify_subclaim id point st;
        get y <- verify_subclaims ids point (snd x);
        VRet (Ok (fst x :: fst y, snd y))
      end.

    (** lines 147-317, after the claim has been added to [round_claims] *)
    Definition verify_variant (c : claim) (v : variant L) (st : vstate) : vproto F vstate :=
      let p := c_point c in
      match v with
      | Transparent poly =>
        get e <- VRet (mv_eval poly p);
        if feqb e (c_eval c) then VRet (Ok st) else VRet Err
      | Structured circ =>
        if (n_vars circ <? length p)%nat then VRet Panic
        else
          match evaluate circ (p ++ repeat 0 (n_vars circ - length p)) with
          | None => VRet Panic
          | Some e => if feqb e (c_eval c) then VRet (Ok st) else VRet Err
          end
      | Committed => VRet (Ok (push_committed c st))
      | Repeating id log_count =>
        if (length p <? log_count)%nat then VRet Panic
        else verify_multilinear (mkClaim id (firstn (length p - log_count) p) (c_eval c)) st
      | Projected id values start_index =>
        if (length p <? start_index)%nat then VRet Panic
        else verify_multilinear (mkClaim id (firstn start_index p ++ values ++ skipn start_index p) (c_eval c)) st
      | Shifted id offset block_size sv =>
        get x <- VRet (shifted_sumcheck_meta (st_oracles st) id offset block_size sv p);
        VRet (Ok (set_sums (add_bivariate_sumcheck (snd x) (st_sums st) block_size (c_eval c))
                    (set_oracles (fst x) st)))
      | Packed id log_degree =>
        get x <- VRet (packed_sumcheck_meta (st_oracles st) id log_degree p);
        VRet (Ok (set_sums (add_bivariate_sumcheck (snd x) (st_sums st) log_degree (c_eval c))
                    (set_oracles (fst x) st)))
      | LinearCombination _ offset inner =>
        get x <- verify_subclaims (map fst inner) p st;
        if feqb (offset + weighted (fst x) (map snd inner)) (c_eval c) then VRet (Ok (snd x)) else VRet Err
      | ZeroPadded id n_pad_vars nonzero_index start_index =>
        if (length p <? start_index + n_pad_vars)%nat then VRet Panic
        else
          let sub := firstn start_index p ++ skipn (start_index + n_pad_vars) p in
          let zs := firstn n_pad_vars (skipn start_index p) in
          get s <- VRet (select_row_new (length zs) nonzero_index);
          match mv_eval (select_row_poly s) zs with
          | Ok t =>
            if feqb t 0 then (if feqb (c_eval c) 0 then VRet (Ok st) else VRet Err)
            else verify_multilinear (mkClaim id sub (c_eval c * finv t)) st
          | _ => VRet Panic
          end
      | Composite _ inner circ =>
        get position <- read_u32;
        match nth_error (st_mles st) position with
        | Some (q, _) => if negb (point_eqb q p) then VRet Err
                         else VRet (Ok (set_mles (add_composite_sumcheck position p (st_mles st) inner circ (c_eval c)) st))
        | None => VRet (Ok (set_mles (add_composite_sumcheck position p (st_mles st) inner circ (c_eval c)) st))
        end
      end.
  End Variants.

  (** lines 142-317 *)
  Fixpoint verify_skip (fuel : nat) (c : claim) (st : vstate) : vproto F vstate :=
    match fuel with
    | O => VRet Panic
    | S fuel =>
      let st := set_round (st_round st ++ [c]) st in
      get o <- VRet (oget (st_oracles st) (c_id c));
      verify_variant (verify_skip fuel) c (o_variant o) st
    end.

  (** lines 109-119: the loop *)
  Fixpoint verify_loop (claims : list claim) (st : vstate) : vproto F vstate :=
    match claims with
    | [] => VRet (Ok st)
    | c :: claims =>
      get st <- verify_multilinear (verify_skip (S (c_id c))) c st;
      verify_loop claims st
    end.
  Definition verify (claims : list claim) (st : vstate) : vproto F vstate :=
    verify_loop claims (set_round [] st).

  (** lines 73-81: empty constraint sets are dropped; the builders are left empty *)
  Definition take_new_sumcheck_constraints (st : vstate) : res (list (cset L) * vstate) :=
    try sets <- rmap (build_one (st_oracles st)) (st_sums st);
    Ok (concat (map (fun b => match b with Built s => [s] | Empty => [] end) sets),
        set_sums (repeat [] (length (st_sums st))) st).

  (** lines 84-101 *)
  Definition take_new_mlechecks_constraints (st : vstate) : res (list (list F * cset L) * vstate) :=
    try sets <- rmap (fun pb => try b <- build_one (st_oracles st) (snd pb);
                                match b with Built s => Ok (fst pb, s) | Empty => Err end) (st_mles st);
    Ok (sets, set_mles [] st).
End Model.

Arguments mkClaim {_} _ _ _.
Arguments c_id {_} _.
Arguments c_point {_} _.
Arguments c_eval {_} _.
Arguments point_eqb {_} _ _.
Arguments claim_eqb {_} _ _.
Arguments mkSt {_} _ _ _ _ _.
Arguments st_oracles {_} _.
Arguments st_committed {_} _.
Arguments st_sums {_} _.
Arguments st_mles {_} _.
Arguments st_round {_} _.
Arguments vnew {_} _.
Arguments set_oracles {_} _ _.
Arguments set_sums {_} _ _.
Arguments set_mles {_} _ _.
Arguments set_round {_} _ _.
Arguments push_committed {_} _ _.
Arguments read_u32 {_} _.
Arguments read_scalar {_}.
Arguments read_hint {_} _.
Arguments projected_bivariate_meta {_} _ _ _ _ _.
Arguments shifted_sumcheck_meta {_} _ _ _ _ _ _.
Arguments packed_sumcheck_meta {_} _ _ _ _.
Arguments bivariate_product {_}.
Arguments add_bivariate_sumcheck {_} _ _ _ _.
Arguments add_composite_sumcheck {_} _ _ _ _ _ _.
Arguments weighted {_} _ _.
Arguments verify_multilinear {_} _ _ _ _.
Arguments verify_subclaim {_} _ _ _ _ _.
Arguments verify_subclaims {_} _ _ _ _ _.
Arguments verify_variant {_} _ _ _ _ _.
Arguments verify_skip {_} _ _ _ _.
Arguments verify_loop {_} _ _ _.
Arguments verify {_} _ _ _.
Arguments take_new_sumcheck_constraints {_} _.
Arguments take_new_mlechecks_constraints {_} _.
