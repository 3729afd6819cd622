(** Model of crates/core/src/oracle/multilinear.rs (sets of multilinear oracles) and of
    crates/core/src/oracle/constraint.rs (constraint sets), for the tower field of level [L].

    Simplifications: names are left out; [usize] and oracle indices are unbounded (the truncation of
    [OracleId] to 32 bits is in Transcript/SerProps.v, C35); the trait object of a transparent polynomial is its number of variables and
    evaluation function, its tower level is an argument. *)
Require Import Coq.Arith.PeanoNat Coq.Lists.List Coq.Bool.Bool.
From Verif Require Import Base.Fld Base.Lists Base.Sums Math.MleModel Math.ArithModel Field.TowerModel Field.TowerProofs
  Transparent.TransparentModel Transparent.ShiftModel.
Import ListNotations.

Section Model.
  Variable L : nat.
  Notation F := (TF L).
  Local Open Scope fld_scope.

  (** multilinear.rs lines 584-605, with the structs at 703-713 (Projected), 736-746 (ZeroPadded),
      785-795 (Shifted), 827-839 (Packed), 847-854 (LinearCombination), 896-906 (CompositeMLE) *)
  Inductive variant : Type :=
  | Committed
  | Transparent (p : mvpoly F)
  | Structured (c : circuit F)
  | Repeating (id log_count : nat)
  | Projected (id : nat) (values : list F) (start_index : nat)
  | Shifted (id offset block_size : nat) (sv : shift_variant)
  | Packed (id log_degree : nat)
  | LinearCombination (n_vars : nat) (offset : F) (inner : list (nat * F))
  | ZeroPadded (id n_pad_vars nonzero_index start_index : nat)
  | Composite (n_vars : nat) (inner : list nat) (c : circuit F).

  (** lines 574-582 *)
  Record oracle : Type := mkOracle { o_nvars : nat; o_level : nat; o_variant : variant }.

  (** lines 345-363; [None] is a skipped oracle *)
  Definition oset := list (option oracle).

  (** lines 544-552: indexing panics for an unknown and for a skipped oracle *)
  Definition oget (os : oset) (id : nat) : res oracle :=
    match nth_error os id with
    | Some (Some o) => Ok o
    | _ => Panic
    end.

  (** lines 409-411 *)
  Definition is_valid_oracle_id (os : oset) (id : nat) : bool := (id <? length os)%nat.

  (** lines 413-422 *)
  Definition add_to_set (os : oset) (o : oracle) : oset * nat := (os ++ [Some o], length os).
  (** lines 425-428 *)
  Definition add_skip (os : oset) : oset := os ++ [None].

  (** lines 524-526, 533-535 *)
  Definition n_vars_of (os : oset) (id : nat) : res nat := try o <- oget os id; Ok (o_nvars o).
  Definition level_of (os : oset) (id : nat) : res nat := try o <- oget os id; Ok (o_level o).

  (** lines 27-45 and 679-688 *)
  Definition add_transparent (os : oset) (p : mvpoly F) (level : nat) : res (oset * nat) :=
    if (L <? level)%nat then Err
    else Ok (add_to_set os (mkOracle (mv_nvars p) level (Transparent p))).

  (** field/src/binary_field.rs lines 704-712, math/src/arith_expr.rs lines 296-312 *)
  Definition min_level (x : F) : nat := tmin_level L (enc L x).
  Definition circuit_level (c : circuit F) : nat :=
    fold_right Nat.max 0%nat (map (fun s => match s with SConst v => min_level v | _ => 0%nat end) c).

  (** lines 47-63 *)
  Definition add_structured (os : oset) (n_vars : nat) (c : circuit F) : res (oset * nat) :=
    if (L <? circuit_level c)%nat then Err
    else Ok (add_to_set os (mkOracle n_vars (circuit_level c) (Structured c))).

  (** lines 65-68, 327-342 *)
  Definition add_committed (os : oset) (n_vars level : nat) : oset * nat :=
    add_to_set os (mkOracle n_vars level Committed).

  (** lines 86-105 *)
  Definition add_repeating (os : oset) (id log_count : nat) : res (oset * nat) :=
    if negb (is_valid_oracle_id os id) then Err
    else
      try inner <- oget os id;
      Ok (add_to_set os (mkOracle (o_nvars inner + log_count) (o_level inner) (Repeating id log_count))).

  (** lines 107-141 and 797-825 *)
  Definition add_shifted (os : oset) (id offset block_bits : nat) (sv : shift_variant) : res (oset * nat) :=
    if negb (is_valid_oracle_id os id) then Err
    else
      try n <- n_vars_of os id;
      try level <- level_of os id;
      if (n <? block_bits)%nat then Err
      else if ((offset =? 0) || (2 ^ block_bits <=? offset))%nat then Err
      else Ok (add_to_set os (mkOracle n level (Shifted id offset block_bits sv))).

  (** lines 143-170 *)
  Definition add_packed (os : oset) (id log_degree : nat) : res (oset * nat) :=
    if negb (is_valid_oracle_id os id) then Err
    else
      try n <- n_vars_of os id;
      if (n <? log_degree)%nat then Err
      else
        try level <- level_of os id;
        Ok (add_to_set os (mkOracle (n - log_degree) (level + log_degree) (Packed id log_degree))).

  (** lines 172-202 and 715-734 *)
  Definition add_projected (os : oset) (id : nat) (values : list F) (start_index : nat) : res (oset * nat) :=
    if negb (is_valid_oracle_id os id) then Err
    else
      try n <- n_vars_of os id;
      if (n <? length values)%nat then Err
      else
        try level <- level_of os id;
        if (n <? length values + start_index)%nat then Err
        else Ok (add_to_set os (mkOracle (n - length values) level (Projected id values start_index))).

  (** lines 204-234: the subtraction on line 212 is before the check on line 214 *)
  Definition add_projected_last_vars (os : oset) (id : nat) (values : list F) : res (oset * nat) :=
    if negb (is_valid_oracle_id os id) then Err
    else
      try n <- n_vars_of os id;
      if (n <? length values)%nat then Panic
      else
        let start_index := (n - length values)%nat in
        if (n <? length values)%nat then Err
        else
          try level <- level_of os id;
          if (n <? length values + start_index)%nat then Err
          else Ok (add_to_set os (mkOracle (n - length values) level (Projected id values start_index))).

  (** the loops of lines 863-867 and 915-919 *)
  Fixpoint check_n_vars (os : oset) (n : nat) (ids : list nat) : res unit :=
    match ids with
    | [] => Ok tt
    | id :: ids =>
      try m <- n_vars_of os id;
      if negb (m =? n)%nat then Err else check_n_vars os n ids
    end.

  (** lines 244-272 and 856-873 *)
  Definition add_linear_combination_with_offset (os : oset) (n_vars : nat) (offset : F) (inner : list (nat * F))
    : res (oset * nat) :=
    try levels <- rmap (fun ic => try l <- level_of os (fst ic); Ok (Nat.max l (min_level (snd ic)))) inner;
    let level := Nat.max (fold_right Nat.max 0%nat levels) (min_level offset) in
    try _ <- check_n_vars os n_vars (map fst inner);
    Ok (add_to_set os (mkOracle n_vars level (LinearCombination n_vars offset inner))).

  (** lines 236-242 *)
  Definition add_linear_combination (os : oset) (n_vars : nat) (inner : list (nat * F)) : res (oset * nat) :=
    add_linear_combination_with_offset os n_vars 0 inner.

  (** lines 274-297 and 908-923, with [ArithCircuitPoly::with_n_vars]
      (fast_compute/src/arith_circuit.rs lines 243-266) for a build with overflow checks; the
      compiled steps of that type are in Compute/CircuitPolyModel.v *)
  Definition add_composite_mle (os : oset) (n_vars : nat) (inner : list nat) (comp : circuit F) : res (oset * nat) :=
    try levels <- rmap (level_of os) inner;
    let level := fold_right Nat.max 0%nat levels in
    try _ <- check_n_vars os n_vars inner;
    match optimize false true comp with
    | None => Panic
    | Some c =>
      if (length inner <? ArithModel.n_vars c)%nat then Err
      else Ok (add_to_set os (mkOracle n_vars level (Composite n_vars inner c)))
    end.

  (** lines 299-325 and 748-776 *)
  Definition add_zero_padded (os : oset) (id n_pad_vars nonzero_index start_index : nat) : res (oset * nat) :=
    try n <- n_vars_of os id;
    try level <- level_of os id;
    if (n <? start_index)%nat then Err
    else if (2 ^ n_pad_vars <? nonzero_index)%nat then Err
    else Ok (add_to_set os (mkOracle (n + n_pad_vars) level (ZeroPadded id n_pad_vars nonzero_index start_index))).

  (* ------------------------------------------------------------------ *)
  (** * Constraint sets: oracle/constraint.rs *)

  (** lines 70-78, with the predicate [Sum] (26-33); names left out *)
  Record ungrouped : Type := mkUn { u_ids : list nat; u_comp : circuit F; u_sum : F }.

  (** lines 80-86 *)
  Definition builder := list ungrouped.

  (** lines 95-107 *)
  Definition add_sumcheck (b : builder) (ids : list nat) (c : circuit F) (sum : F) : builder :=
    b ++ [mkUn ids c sum].

  (** lines 35-46 *)
  Record cset : Type := mkCset { cs_nvars : nat; cs_ids : list nat; cs_constraints : list (circuit F * F) }.

  (** lines 170-184 *)
  Fixpoint position (id : nat) (l : list nat) : option nat :=
    match l with
    | [] => None
    | a :: l => if (a =? id)%nat then Some 0%nat else option_map S (position id l)
    end.
  Definition positions (subset superset : list nat) : option (list nat) :=
    omap (fun id => position id superset) subset.

  (** [sort] and [dedup] of the standard library *)
  Fixpoint insert (a : nat) (l : list nat) : list nat :=
    match l with
    | [] => [a]
    | b :: l' => if (a <=? b)%nat then a :: l else b :: insert a l'
    end.
  Definition sort (l : list nat) : list nat := fold_right insert [] l.
  Fixpoint dedup (l : list nat) : list nat :=
    match l with
    | a :: l' => match l' with
                 | b :: _ => if (a =? b)%nat then dedup l' else a :: dedup l'
                 | [] => [a]
                 end
    | [] => []
    end.

  (** lines 145-160: one constraint over the superset of oracles *)
  Definition regroup (ids : list nat) (u : ungrouped) : res (circuit F * F) :=
    match positions (u_ids u) ids with
    | None => Panic
    | Some pos => match remap_vars (u_comp u) pos with
                  | Ok c => Ok (c, u_sum u)
                  | _ => Panic
                  end
    end.

  (** lines 110-167; [Err] is one of two errors, which evalcheck tells apart: [Empty] and others *)
  Inductive built : Type := Built (s : cset) | Empty.

  Definition build_one (os : oset) (b : builder) : res built :=
    let ids := concat (map u_ids b) in
    match ids with
    | [] => Ok Empty
    | _ :: _ =>
      if negb (forallb (is_valid_oracle_id os) ids) then Err
      else
        let ids := dedup (sort ids) in
        try n <- match ids with [] => Ok 0%nat | id :: _ => n_vars_of os id end;
        try _ <- check_n_vars os n ids;
        try cs <- rmap (regroup ids) b;
        Ok (Built (mkCset n ids cs))
    end.
End Model.

Arguments Committed {_}.
Arguments Transparent {_} _.
Arguments Structured {_} _.
Arguments Repeating {_} _ _.
Arguments Projected {_} _ _ _.
Arguments Shifted {_} _ _ _ _.
Arguments Packed {_} _ _.
Arguments LinearCombination {_} _ _ _.
Arguments ZeroPadded {_} _ _ _ _.
Arguments Composite {_} _ _ _.
Arguments mkOracle {_} _ _ _.
Arguments o_nvars {_} _.
Arguments o_level {_} _.
Arguments o_variant {_} _.
Arguments oget {_} _ _.
Arguments is_valid_oracle_id {_} _ _.
Arguments add_to_set {_} _ _.
Arguments add_skip {_} _.
Arguments n_vars_of {_} _ _.
Arguments level_of {_} _ _.
Arguments add_transparent {_} _ _ _.
Arguments min_level {_} _.
Arguments circuit_level {_} _.
Arguments add_structured {_} _ _ _.
Arguments add_committed {_} _ _ _.
Arguments add_repeating {_} _ _ _.
Arguments add_shifted {_} _ _ _ _ _.
Arguments add_packed {_} _ _ _.
Arguments add_projected {_} _ _ _ _.
Arguments add_projected_last_vars {_} _ _ _.
Arguments check_n_vars {_} _ _ _.
Arguments add_linear_combination_with_offset {_} _ _ _ _.
Arguments add_linear_combination {_} _ _ _.
Arguments add_composite_mle {_} _ _ _ _.
Arguments add_zero_padded {_} _ _ _ _ _.
Arguments mkUn {_} _ _ _.
Arguments u_ids {_} _.
Arguments u_comp {_} _.
Arguments u_sum {_} _.
Arguments add_sumcheck {_} _ _ _ _.
Arguments mkCset {_} _ _ _.
Arguments cs_nvars {_} _.
Arguments cs_ids {_} _.
Arguments cs_constraints {_} _.
Arguments regroup {_} _ _.
Arguments Built {_} _.
Arguments Empty {_}.
Arguments build_one {_} _ _.
