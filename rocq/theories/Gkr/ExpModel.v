(** Model of the exponentiation reduction: crates/core/src/protocols/gkr_exp/{common,compositions,utils,
    verifiers,batch_verify,oracles}.rs and of the exponentiation phase of the constraint system verifier
    (crates/core/src/constraint_system/{exp,verify}.rs).

    Subtractions of [usize] that underflow and shifts by 64 bits or more panic here, as in a build with overflow checks. *)
Require Import Coq.Arith.Arith Coq.Lists.List Coq.Bool.Bool.
From Verif Require Import Base.Fld Base.Lists Base.Sums Math.UnivariateModel Protocol.Proto Utils.SortModel Transparent.TransparentModel
  Sumcheck.SumcheckModel Sumcheck.EqIndModel Sumcheck.ZerocheckModel.
Import ListNotations.

Section Model.
  Variable F : field.
  Local Open Scope fld_scope.

  (** common.rs lines 7-17 *)
  Local Notation layer_claim := (list F * F)%type.

  (** common.rs lines 36-47.  A verifier (verifiers.rs lines 55, 171) is a wrapped claim; which of the two
      implementations is used is decided by [ex_base] (batch_verify.rs lines 254-270), so that the
      constructors (lines 57-65, 173-181) never fail. *)
  Record exp_claim : Type := mkEx { ex_point : list F; ex_eval : F; ex_width : nat; ex_n : nat; ex_base : option F }.

  (** compositions.rs lines 11-89: [StaticBase], [DynamicBase], [DynamicBaseLastLayer]; the leading terms are those of
      the expressions *)
  Definition static_comp (g : F) : comp F :=
    mkComp 2 2 (fun q => match q with [x; y] => Ok (x * ((1 - y) + y * g)) | _ => Err end)
               (fun q => match q with [x; y] => Ok (x * (y * g - y)) | _ => Err end) [true; true].
  Definition dynamic_comp : comp F :=
    mkComp 3 4 (fun q => match q with [x; y; z] => Ok (x * x * ((1 - y) + y * z)) | _ => Err end)
               (fun q => match q with [x; y; z] => Ok (x * x * (y * z)) | _ => Err end) [true; true; true].
  Definition dynamic_last_comp : comp F :=
    mkComp 2 2 (fun q => match q with [x; y] => Ok ((1 - y) + y * x) | _ => Err end)
               (fun q => match q with [x; y] => Ok (y * x) | _ => Err end) [true; true].

  (** utils.rs lines 5-10 *)
  Definition first_layer_inverse (input base : F) : F := (input - 1) * finv (base - 1).

  (** verifiers.rs lines 21-23 *)
  Definition is_last (v : exp_claim) (l : nat) : res bool :=
    if (ex_width v <? l + 1)%nat then Panic else Ok (ex_width v =? l + 1)%nat.

  (** lines 157-164, 283-291 *)
  Definition n_multilinears (v : exp_claim) (l : nat) : res nat :=
    try last <- is_last v l;
    Ok (match ex_base v with Some _ => if last then 0 else 2 | None => if last then 2 else 3 end)%nat.

  (** lines 122-155 (static base), 244-281 (dynamic base) *)
  Definition sum_claim (v : exp_claim) (l m idx : nat) : res (option (comp F * F)) :=
    try last <- is_last v l;
    match ex_base v with
    | Some g =>
      if last then Ok None
      else
        let internal := (ex_width v - 1 - l)%nat in
        if (64 <=? internal)%nat then Panic
        else try c <- index_comp m [idx; idx + 1]%nat (static_comp (fpow g (2 ^ internal))); Ok (Some (c, ex_eval v))
    | None =>
      if last then try c <- index_comp m [idx; idx + 1]%nat dynamic_last_comp; Ok (Some (c, ex_eval v))
      else try c <- index_comp m [idx; idx + 1; idx + 2]%nat dynamic_comp; Ok (Some (c, ex_eval v))
    end.

  (** the slices of [r] in lines 103-106 and 201-204, batch_verify.rs lines 211-216 *)
  Definition take_point (o : order) (n : nat) (r : list F) : res (list F) :=
    if (length r <? n)%nat then Panic
    else Ok (match o with LowToHigh => skipn (length r - n) r | HighToLow => firstn n r end).

  (** lines 79-120 (static base), 192-242 (dynamic base) *)
  Definition finish_layer (o : order) (l : nat) (v : exp_claim) (evals r : list F) : res (list layer_claim * exp_claim) :=
    try last <- is_last v l;
    match ex_base v with
    | Some g =>
      if last then Ok ([(ex_point v, first_layer_inverse (ex_eval v) g)], v)
      else
        try layer_eval <- of_opt (nth_error evals 0);
        try bit_eval <- of_opt (nth_error evals 1);
        try p <- take_point o (length (ex_point v)) r;
        Ok ([(p, bit_eval)], mkEx p layer_eval (ex_width v) (ex_n v) (ex_base v))
    | None =>
      try p <- take_point o (length (ex_point v)) r;
      try bit_eval <- of_opt (nth_error evals 1);
      if last then
        try base_eval <- of_opt (nth_error evals 0);
        Ok ([(p, bit_eval); (p, base_eval)], v)
      else
        try layer_eval <- of_opt (nth_error evals 0);
        try base_eval <- of_opt (nth_error evals 2);
        Ok ([(p, bit_eval); (p, base_eval)], mkEx p layer_eval (ex_width v) (ex_n v) (ex_base v))
    end.

  (** batch_verify.rs lines 174-186: the loop over the verifiers of one point *)
  Fixpoint sum_claims (l m idx : nat) (vs : list exp_claim) : res (list (comp F * F)) :=
    match vs with
    | [] => Ok []
    | v :: vs' =>
      try c <- sum_claim v l m idx;
      try k <- n_multilinears v l;
      try rest <- sum_claims l m (idx + k) vs';
      Ok (match c with Some cs => cs :: rest | None => rest end)
    end.

  (** lines 146-189; the number of claims is only a capacity *)
  Definition eval_point_claim (l : nat) (vs : list exp_claim) : res (option (claim F)) :=
    try ks <- collect_res (map (fun v => n_multilinears v l) vs);
    let m := list_sum ks in
    if (m =? 0)%nat then Ok None
    else match vs with
         | [] => Panic
         | v :: _ =>
           try sums <- sum_claims l m 0 vs;
           try c <- eq_claim_new (length (ex_point v)) m sums;
           Ok (Some c)
         end.

  Fixpoint points_eqb (a b : list F) : bool :=
    match a, b with [], [] => true | x :: a', y :: b' => feqb x y && points_eqb a' b' | _, _ => false end.

  (** lines 110-134: the loop; [group] is [verifiers[active_index..i]] *)
  Fixpoint group_loop (l : nat) (group rest : list exp_claim) (claims : list (claim F)) (points : list (list F))
      : res (list (claim F) * list (list F)) :=
    match rest with
    | [] => Ok (claims, points)
    | v :: rest' =>
      try st <- (if negb (points_eqb (ex_point v) (last points [])) then
                   try c <- eval_point_claim l group;
                   Ok ([] : list exp_claim,
                       match c with Some c => claims ++ [c] | None => claims end,
                       (match c with Some _ => points | None => removelast points end) ++ [ex_point v])
                 else Ok (group, claims, points));
      let '(group, claims, points) := st in
      let group := group ++ [v] in
      match rest' with
      | [] => try c <- eval_point_claim l group;
              Ok (match c with Some c => claims ++ [c] | None => claims end, points)
      | _ => group_loop l group rest' claims points
      end
    end.

  (** lines 94-140 *)
  Definition layer_sumcheck_claims (l : nat) (vs : list exp_claim) : res (list (claim F) * list (list F)) :=
    match vs with
    | [] => Panic
    | v :: _ => group_loop l [] vs [] [ex_point v]
    end.

  (** lines 204-228: check and removal of the evaluations of the equality indicators *)
  Fixpoint check_eq_evals (o : order) (chal : list F) (evals : list (list F)) (points : list (list F)) : res (list (list F)) :=
    match evals, points with
    | e :: es, p :: ps =>
      try q <- take_point o (length p) chal;
      try expected <- mv_eval (eq_ind_poly p) q;
      match e with
      | [] => Panic
      | _ => if negb (feqb expected (last e 0)) then Err
             else try rest <- check_eq_evals o chal es ps; Ok (removelast e :: rest)
      end
    | _, _ => Ok evals
    end.

  (** lines 230-249 *)
  Fixpoint finish_layers (o : order) (l : nat) (vs : list exp_claim) (evals chal : list F) : res (list layer_claim * list exp_claim) :=
    match vs with
    | [] => Ok ([], [])
    | v :: vs' =>
      try k <- n_multilinears v l;
      try cv <- finish_layer o l v (firstn k evals) chal;
      try rest <- finish_layers o l vs' (skipn k evals) chal;
      Ok (fst cv ++ fst rest, snd cv :: snd rest)
    end.

  (** lines 192-252 *)
  Definition exponent_bit_claims (o : order) (l : nat) (vs : list exp_claim) (out : list F * list (list F)) (points : list (list F))
      : res (list layer_claim * list exp_claim) :=
    try evals <- check_eq_evals o (fst out) (snd out) points;
    finish_layers o l vs (concat evals) (fst out).

  (** line 82 *)
  Fixpoint retain_verifiers (l : nat) (vs : list exp_claim) : res (list exp_claim) :=
    match vs with
    | [] => Ok []
    | v :: vs' =>
      try last <- is_last v l;
      try rest <- retain_verifiers l vs';
      Ok (if last : bool then rest else v :: rest)
    end.

  (** lines 62-83: [todo] layers from [l] on *)
  Fixpoint exp_layers (o : order) (todo l : nat) (vs : list exp_claim) : vproto F (list (list layer_claim)) :=
    match todo with
    | O => VRet (Ok [])
    | S todo' =>
      get cp <- VRet (layer_sumcheck_claims l vs);
      get regular <- VRet (reduce_to_regular (fst cp));
      get out <- batch_verify o regular;
      get lv <- VRet (exponent_bit_claims o l vs out (snd cp));
      get vs' <- VRet (retain_verifiers l (snd lv));
      get rest <- exp_layers o todo' (S l) vs';
      VRet (Ok (fst lv :: rest))
    end.

  (** lines 32-86 *)
  Definition exp_verify (o : order) (claims : list exp_claim) : vproto F (list (list layer_claim)) :=
    match claims with
    | [] => VRet (Ok [])
    | _ =>
      if negb (is_sorted_ascending (rev (map ex_n claims))) then VRet Err
      else exp_layers o (fold_right Nat.max 0%nat (map ex_width claims)) 0 claims
    end.

  (* ---------------------------------------------------------------- *)
  (** oracles.rs.  Oracle ids are numbers; [n_vars_of] is [oracles.n_vars]. *)

  (** [izip!] of three lists *)
  Fixpoint zip3 {A B C} (a : list A) (b : list B) (c : list C) : list (A * B * C) :=
    match a, b, c with x :: a', y :: b', z :: c' => (x, y, z) :: zip3 a' b' c' | _, _, _ => [] end.

  (** lines 37-69 *)
  Definition construct_exp_claims (n_vars_of : nat -> nat) (exponents_ids : list (list nat)) (evals : list F)
      (static_bases : list (option F)) (eval_point : list F) : res (list exp_claim) :=
    if existsb (fun ids => match ids with [] => true | _ => false end) exponents_ids then Err
    else collect_res (map (fun x => let '(ids, eval, base) := x in
           let n := n_vars_of (last ids 0%nat) in
           if (length eval_point <? n)%nat then Panic
           else Ok (mkEx (firstn n eval_point) eval (length ids) n base)) (zip3 exponents_ids evals static_bases)).

  (** an [EvalcheckMultilinearClaim]: oracle id, point and value *)
  Local Notation eval_claim := (nat * list F * F)%type.

  (** lines 82-121: one layer; both lists are reversed, so that [pop] takes the head *)
  Fixpoint layer_eval_claims (l : nat) (rexps : list (option nat * list nat)) (rclaims : list layer_claim) : res (list eval_claim) :=
    match rexps with
    | [] => Ok []
    | (base, meta) :: rest =>
      if (length meta =? 0)%nat then Panic
      else if (length meta - 1 <? l)%nat then layer_eval_claims l rest rclaims
      else match rclaims with
           | [] => Err
           | (p, e) :: rc =>
             match base with
             | Some base_id =>
               match rc with
               | [] => Err
               | (p', e') :: rc' =>
                 try bit_id <- of_opt (nth_error meta l);
                 try r <- layer_eval_claims l rest rc';
                 Ok ((bit_id, p', e') :: (base_id, p, e) :: r)
               end
             | None =>
               try bit_id <- of_opt (nth_error meta (length meta - 1 - l));
               try r <- layer_eval_claims l rest rc;
               Ok ((bit_id, p, e) :: r)
             end
           end
    end.

  (** lines 72-125 *)
  Definition exp_make_eval_claims (metas : list (list nat)) (layers : list (list layer_claim)) (base_ids : list (option nat))
      : res (list eval_claim) :=
    let max_bits := fold_right Nat.max 0%nat (map (@length nat) metas) in
    try ls <- collect_res (map (fun l => try claims <- of_opt (nth_error layers l);
                                         layer_eval_claims l (rev (combine base_ids metas)) (rev claims)) (seq 0 max_bits));
    Ok (concat ls).

  (* ---------------------------------------------------------------- *)
  (** constraint_system/exp.rs *)

  (** channel.rs lines 63-68: [OracleOrConst] *)
  Inductive base_kind : Type := BaseConst (g : F) | BaseOracle (id : nat).
  (** lines 33-39 *)
  Record exp_spec : Type := mkExp { xp_bits : list nat; xp_base : base_kind; xp_result : nat }.

  (** lines 41-45, 47-53 *)
  Definition xp_n_vars (n_vars_of : nat -> nat) (e : exp_spec) : nat := n_vars_of (xp_result e).
  Definition exp_max_n_vars (n_vars_of : nat -> nat) (es : list exp_spec) : nat :=
    fold_right Nat.max 0%nat (map (xp_n_vars n_vars_of) es).

  (** lines 125-148 *)
  Definition exp_make_claims (n_vars_of : nat -> nat) (es : list exp_spec) (point evals : list F) : res (list exp_claim) :=
    construct_exp_claims n_vars_of (map xp_bits es) evals
      (map (fun e => match xp_base e with BaseConst g => Some g | BaseOracle _ => None end) es) point.

  (** lines 150-169 *)
  Definition exp_eval_claims (es : list exp_spec) (layers : list (list layer_claim)) : res (list eval_claim) :=
    exp_make_eval_claims (map xp_bits es) layers
      (map (fun e => match xp_base e with BaseConst _ => None | BaseOracle id => Some id end) es).

  (** lines 276-286: more variables first, among those constant bases first; stable *)
  Definition reorder_exponents (n_vars_of : nat -> nat) (es : list exp_spec) : list exp_spec :=
    let kind e := match xp_base e with BaseConst _ => 0%nat | BaseOracle _ => 1%nat end in
    sort_by (fun a b => (xp_n_vars n_vars_of b <? xp_n_vars n_vars_of a)%nat ||
                        ((xp_n_vars n_vars_of a =? xp_n_vars n_vars_of b)%nat && (kind a <=? kind b)%nat)) es.

  (** verify.rs lines 121-149: the evaluation claims of the exponentiation phase *)
  Definition exp_phase (n_vars_of : nat -> nat) (exponents : list exp_spec) : vproto F (list eval_claim) :=
    let es := reorder_exponents n_vars_of exponents in
    get challenge <- vsamples (exp_max_n_vars n_vars_of es);
    get evals <- vread (length es);
    get claims <- VRet (exp_make_claims n_vars_of es challenge evals);
    get layers <- exp_verify HighToLow claims;
    VRet (exp_eval_claims es layers).
End Model.

Arguments mkEx {_} _ _ _ _ _.
Arguments ex_point {_} _.
Arguments ex_eval {_} _.
Arguments ex_width {_} _.
Arguments ex_n {_} _.
Arguments ex_base {_} _.
Arguments static_comp {_} _.
Arguments dynamic_comp {_}.
Arguments dynamic_last_comp {_}.
Arguments first_layer_inverse {_} _ _.
Arguments is_last {_} _ _.
Arguments n_multilinears {_} _ _.
Arguments sum_claim {_} _ _ _ _.
Arguments take_point {_} _ _ _.
Arguments finish_layer {_} _ _ _ _ _.
Arguments sum_claims {_} _ _ _ _.
Arguments eval_point_claim {_} _ _.
Arguments points_eqb {_} _ _.
Arguments group_loop {_} _ _ _ _ _.
Arguments layer_sumcheck_claims {_} _ _.
Arguments check_eq_evals {_} _ _ _ _.
Arguments finish_layers {_} _ _ _ _ _.
Arguments exponent_bit_claims {_} _ _ _ _ _.
Arguments retain_verifiers {_} _ _.
Arguments exp_layers {_} _ _ _ _.
Arguments exp_verify {_} _ _.
Arguments construct_exp_claims {_} _ _ _ _ _.
Arguments layer_eval_claims {_} _ _ _.
Arguments exp_make_eval_claims {_} _ _ _.
Arguments BaseConst {_} _.
Arguments BaseOracle {_} _.
Arguments mkExp {_} _ _ _.
Arguments xp_bits {_} _.
Arguments xp_base {_} _.
Arguments xp_result {_} _.
Arguments xp_n_vars {_} _ _.
Arguments exp_max_n_vars {_} _ _.
Arguments exp_make_claims {_} _ _ _ _.
Arguments exp_eval_claims {_} _ _.
Arguments reorder_exponents {_} _ _.
Arguments exp_phase {_} _ _.
