(** Model of the product phase of crates/core/src/constraint_system/verify.rs: the oracles for channel flushes
    (lines 385-577), the balance of the channels (lines 305-383) and the part of [verify] that checks the products
    (lines 97-103 and 151-209), for the tower field of level [L].

    Simplifications: errors are not distinguished; [usize] is unbounded; names of oracles are left out.  The hash map of
    step-down oracles is an association list.  An expression is converted to a circuit as the operators on circuits
    would build it, which is what lines 702-761 of arith_expr.rs do when, as here, no subexpression is shared.
    [pow_vartime] is the power with the exponent it is given. *)
Require Import Coq.Arith.PeanoNat Coq.NArith.NArith Coq.Lists.List Coq.Bool.Bool.
From Verif Require Import Base.Fld Base.Lists Base.Sums Math.ArithModel Field.TowerProofs Transparent.TransparentModel Protocol.Proto
  Utils.SortModel Sumcheck.SumcheckModel Sumcheck.ZerocheckModel Gkr.GpaModel Cs.ChannelModel Evalcheck.OracleModel.
Import ListNotations.

Section Model.
  Variable L : nat.
  Notation F := (TF L).
  Local Open Scope fld_scope.

  (** constraint_system/mod.rs TableSizeSpec *)
  Inductive size_spec := PowerOfTwo | Fixed (log_size : nat) | Arbitrary.

  (** [usize::is_power_of_two] *)
  Definition is_power_of_two (n : nat) : bool := negb (n =? 0)%nat && (n =? 2 ^ Nat.log2 n)%nat.

  (** constraint_system/mod.rs lines 60-93 *)
  Definition check_table_sizes (specs : list size_spec) (sizes : list nat) : res unit :=
    if negb (length sizes =? length specs)%nat then Err
    else if forallb (fun st => match snd st with
                               | PowerOfTwo => is_power_of_two (fst st)
                               | Fixed log_size => (fst st =? 2 ^ log_size)%nat
                               | Arbitrary => true
                               end) (combine sizes specs)
    then Ok tt else Err.

  (** verify.rs lines 100-101 (and again 182-183): flushes of empty tables are dropped, the rest sorted by channel *)
  Definition prepare_flushes (sizes : list nat) (fs : list (flush F)) : res (list (flush F)) :=
    try keep <- rmap (fun f => try n <- of_opt (nth_error sizes (fl_table F f)); Ok (0 <? n)%nat) fs;
    Ok (sort_by (fun a b => (fl_channel F a <=? fl_channel F b)%nat) (map snd (filter fst (combine keep fs)))).

  (** The step-down oracles by table and number of values per row. *)
  Definition sd_map := list ((nat * nat) * nat).
  Fixpoint sd_find (t lv : nat) (m : sd_map) : option nat :=
    match m with
    | [] => None
    | ((t', lv'), id) :: m => if ((t' =? t) && (lv' =? lv))%nat then Some id else sd_find t lv m
    end.

  (** lines 405-432: one flush *)
  Definition create_step_down (specs : list size_spec) (sizes : list nat) (st : oset L * sd_map) (f : flush F) : res (oset L * sd_map) :=
    try size <- of_opt (nth_error sizes (fl_table F f));
    try spec <- of_opt (nth_error specs (fl_table F f));
    match spec with
    | Arbitrary =>
      match sd_find (fl_table F f) (fl_log_values_per_row F f) (snd st) with
      | Some _ => Ok st
      | None =>
        let n_vars := (log2_ceil size + fl_log_values_per_row F f)%nat in
        try s <- step_new n_vars (size * 2 ^ fl_log_values_per_row F f);
        try x <- add_transparent (fst st) (step_down_poly s) 0;
        Ok (fst x, ((fl_table F f, fl_log_values_per_row F f), snd x) :: snd st)
      end
    | _ => Ok st
    end.

  Definition add_selector (f : flush F) (id : nat) : flush F :=
    mkFlush F (fl_table F f) (fl_log_values_per_row F f) (fl_oracles F f) (fl_channel F f) (fl_dir F f) (fl_selectors F f ++ [id]) (fl_multiplicity F f).

  (** lines 435-446: one flush *)
  Definition push_step_down (specs : list size_spec) (m : sd_map) (f : flush F) : res (flush F) :=
    try spec <- of_opt (nth_error specs (fl_table F f));
    match spec with
    | Arbitrary => match sd_find (fl_table F f) (fl_log_values_per_row F f) m with
                   | Some id => Ok (add_selector f id)
                   | None => Ok f
                   end
    | _ => Ok f
    end.

  (** lines 391-449 *)
  Definition augment_flush_po2_step_down (os : oset L) (fs : list (flush F)) (specs : list size_spec) (sizes : list nat)
    : res (oset L * list (flush F)) :=
    try st <- fold_r (create_step_down specs sizes) fs (os, []);
    try fs' <- rmap (push_step_down specs (snd st)) fs;
    Ok (fst st, fs').

  (** lines 500-506 *)
  Fixpoint grow (k : nat) (s : F) (powers : list F) : list F :=
    match k with O => powers | S k => grow k s (powers ++ [last powers 0 * s]) end.
  Definition mixing_powers_to (n : nat) (s : F) (powers : list F) : list F := grow (n - length powers) s powers.

  (** lines 508-517 *)
  Definition const_part (os : list (oracle_or_const F)) (powers : list F) : F :=
    fsum (flat_map (fun oc => match fst oc with Const _ base => [base * snd oc] | Oracle _ _ => [] end) (combine os powers)).
  (** lines 525-534 and 543-550 *)
  Definition column_part (os : list (oracle_or_const F)) (powers : list F) : list (nat * F) :=
    flat_map (fun oc => match fst oc with Oracle _ id => [(id, snd oc)] | Const _ _ => [] end) (combine os powers).

  (** lines 552-559 *)
  Definition linear_circuit (offset : F) (var_offset : nat) (coeffs : list F) : circuit F :=
    fold_left (fun linear ic => cadd linear (cmul (cvar (fst ic + var_offset)) (cconst (snd ic))))
      (combine (seq 0 (length coeffs)) coeffs) (cconst offset).
  (** lines 561-563 *)
  Definition selector_circuit (n : nat) : circuit F :=
    match map cvar (seq 0 n) with [] => cconst 1 | c :: cs => fold_left cmul cs c end.

  Fixpoint check_levels (os : oset L) (ids : list nat) : res unit :=
    match ids with
    | [] => Ok tt
    | id :: ids => try l <- level_of os id; if negb (l =? 0)%nat then Err else check_levels os ids
    end.

  (** lines 466-573: one flush, with the permutation challenge [r] of its channel *)
  Definition make_flush_oracle (s r : F) (st : oset L * list F) (f : flush F) : res (oset L * list F * nat) :=
    let '(os, powers) := st in
    match oracle_ids F (fl_oracles F f) with
    | [] => Err
    | first :: rest =>
      try n_vars <- n_vars_of os first;
      try _ <- check_levels os (fl_selectors F f);
      try _ <- check_n_vars os n_vars rest;
      let powers := mixing_powers_to (length (fl_oracles F f)) s powers in
      let consts := const_part (fl_oracles F f) powers in
      let columns := column_part (fl_oracles F f) powers in
      try x <- match fl_selectors F f with
               | [] => add_linear_combination_with_offset os n_vars (r + consts) columns
               | _ :: _ =>
                 let n := length (fl_selectors F f) in
                 let linear := linear_circuit (r + consts + 1) n (map snd columns) in
                 add_composite_mle os n_vars (fl_selectors F f ++ map fst columns) (cadd (cconst 1) (cmul (selector_circuit n) linear))
               end;
      Ok (fst x, powers, snd x)
    end.

  Fixpoint make_channel (s r : F) (st : oset L * list F) (fs : list (flush F)) : res (oset L * list F * list nat) :=
    match fs with
    | [] => Ok (st, [])
    | f :: fs =>
      try x <- make_flush_oracle s r st f;
      try y <- make_channel s r (fst x) fs;
      Ok (fst y, snd x :: snd y)
    end.

  (** [peeking_take_while] with the rest of the iterator *)
  Fixpoint take_channel {A} (channel : A -> nat) (c : nat) (l : list A) : list A * list A :=
    match l with
    | [] => ([], [])
    | a :: l' => if (channel a =? c)%nat then let '(x, y) := take_channel channel c l' in (a :: x, y) else ([], l)
    end.

  (** lines 455-577: the channels from [c] on *)
  Fixpoint make_flush_oracles (s : F) (perms : list F) (c : nat) (st : oset L * list F) (fs : list (flush F)) : res (oset L * list nat) :=
    match perms with
    | [] => Ok (fst st, [])
    | r :: perms =>
      let '(mine, others) := take_channel (fl_channel F) c fs in
      try x <- make_channel s r st mine;
      try y <- make_flush_oracles s perms (S c) (fst x) others;
      Ok (fst y, snd x ++ snd y)
    end.

  (** lines 332-338 *)
  Fixpoint mix_values (s sum mixing : F) (vs : list F) : F :=
    match vs with [] => sum | v :: vs => mix_values s (sum + mixing * v) (mixing * s) vs end.

  Definition pow64 (x : F) (m : N) : F := fpow x (N.to_nat m).

  (** a (pull product, push product) with one more factor *)
  Definition times (d : direction) (x : F) (p : F * F) : F * F :=
    match d with Pull => (fst p * x, snd p) | Push => (fst p, snd p * x) end.

  (** lines 321-354 *)
  Definition boundary_product (s : F) (perms : list F) (c : nat) (p : F * F) (b : boundary F) : res (F * F) :=
    if (bd_channel F b =? c)%nat then
      try r <- of_opt (nth_error perms c);
      Ok (times (bd_dir F b) (pow64 (mix_values s r 1 (bd_values F b)) (bd_multiplicity F b)) p)
    else Ok p.

  (** lines 356-375 *)
  Definition flush_product (p : F * F) (fp : flush F * F) : F * F :=
    times (fl_dir F (fst fp)) (pow64 (snd fp) (fl_multiplicity F (fst fp))) p.

  (** lines 317-380; every iteration consumes at least one flush *)
  Fixpoint balance_loop (fuel : nat) (s : F) (perms : list F) (bs : list (boundary F)) (fps : list (flush F * F)) : res unit :=
    match fuel, fps with
    | _, [] => Ok tt
    | O, _ => Panic
    | S fuel, fp :: _ =>
      let c := fl_channel F (fst fp) in
      try p <- fold_r (boundary_product s perms c) bs (1, 1);
      let '(mine, others) := take_channel (fun fp => fl_channel F (fst fp)) c fps in
      let '(pull, push) := fold_left flush_product mine p in
      if negb (feqb pull push) then Err else balance_loop fuel s perms bs others
    end.

  (** lines 305-383 *)
  Definition verify_channels_balance (fs : list (flush F)) (products : list F) (bs : list (boundary F)) (s : F) (perms : list F) : res unit :=
    if negb (length products =? length fs)%nat then Err
    else balance_loop (length fs) s perms bs (combine fs products).

  (** gkr_gpa/oracles.rs lines 27-45 with [oracles.n_vars], which panics for an unknown oracle *)
  Definition n_vars_or0 (os : oset L) (id : nat) : nat := match oget os id with Ok o => o_nvars o | _ => 0%nat end.
  Definition product_claims (os : oset L) (ids : list nat) (products : list F) : res (list (nat * F)) :=
    try _ <- rmap (oget os) ids;
    construct_claims (n_vars_or0 os) ids products.

  (** lines 151-209, up to the evaluation claims on the flush oracles and on the oracles that must not vanish *)
  Definition product_phase (os : oset L) (flushes : list (flush F)) (non_zero : list nat) (specs : list size_spec) (sizes : list nat)
    (channel_count : nat) (bs : list (boundary F)) : vproto F (oset L * list (nat * list F * F)) :=
    get nz_products <- vread (length non_zero);
    if existsb (fun x => feqb x 0) nz_products then VRet Err
    else
      get nz_claims <- VRet (product_claims os non_zero nz_products);
      get s <- vsample;
      get perms <- vsamples channel_count;
      get fs <- VRet (prepare_flushes sizes flushes);
      get a <- VRet (augment_flush_po2_step_down os fs specs sizes);
      get x <- VRet (make_flush_oracles s perms 0 (fst a, [1]) (snd a));
      get products <- vread (length (snd x));
      get _ <- VRet (verify_channels_balance (snd a) products bs s perms);
      get claims <- VRet (product_claims (fst x) (snd x) products);
      get fin <- gpa_verify HighToLow (claims ++ nz_claims);
      get ecs <- VRet (make_eval_claims (snd x ++ non_zero) fin);
      VRet (Ok (fst x, ecs)).
End Model.

Arguments check_table_sizes _ _.
Arguments prepare_flushes {_} _ _.
Arguments create_step_down {_} _ _ _ _.
Arguments add_selector {_} _ _.
Arguments push_step_down {_} _ _ _.
Arguments augment_flush_po2_step_down {_} _ _ _ _.
Arguments grow {_} _ _ _.
Arguments mixing_powers_to {_} _ _ _.
Arguments const_part {_} _ _.
Arguments column_part {_} _ _.
Arguments linear_circuit {_} _ _ _.
Arguments selector_circuit {_} _.
Arguments check_levels {_} _ _.
Arguments make_flush_oracle {_} _ _ _ _.
Arguments make_channel {_} _ _ _ _.
Arguments make_flush_oracles {_} _ _ _ _ _.
Arguments mix_values {_} _ _ _ _.
Arguments pow64 {_} _ _.
Arguments times {_} _ _ _.
Arguments boundary_product {_} _ _ _ _ _.
Arguments flush_product {_} _ _.
Arguments balance_loop {_} _ _ _ _ _.
Arguments verify_channels_balance {_} _ _ _ _ _.
Arguments n_vars_or0 {_} _ _.
Arguments product_claims {_} _ _ _.
Arguments product_phase {_} _ _ _ _ _ _ _.
