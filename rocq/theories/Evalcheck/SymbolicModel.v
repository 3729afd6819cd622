(** Model of crates/core/src/oracle/symbolic.rs: oracles of a constraint system whose table sizes are not yet known, and
    their instantiation when the sizes are read from the proof, for the tower field of level [L].

    Simplifications: as in OracleModel.v; names are left out; [OracleId] is an index of the set. *)
Require Import Coq.Arith.PeanoNat Coq.Lists.List Coq.Bool.Bool.
From Verif Require Import Base.Fld Base.Lists Base.Sums Math.ArithModel Field.TowerProofs
  Transparent.TransparentModel Transparent.ShiftModel Sumcheck.ZerocheckModel Evalcheck.OracleModel.
Import ListNotations.

Section Model.
  Variable L : nat.
  Notation F := (TF L).
  Local Open Scope fld_scope.

  (** symbolic.rs lines 38-97, the variants of [ProjectionVariant] are [Some offset] and [None] ([Last]) *)
  Inductive svariant : Type :=
  | SymCommitted
  | SymTransparent (p : mvpoly F)
  | SymStructured (c : circuit F)
  | SymRepeating (id : nat)
  | SymProjected (id : nat) (values : list F) (start : option nat)
  | SymShifted (id offset block_size : nat) (sv : shift_variant)
  | SymPacked (id log_degree : nat)
  | SymLinearCombination (offset : F) (inner : list (nat * F))
  | SymZeroPadded (id n_pad_vars nonzero_index start_index : nat)
  | SymComposite (inner : list nat) (c : circuit F).

  (** lines 28-36 *)
  Record soracle : Type := mkSym { so_table : nat; so_lv : nat; so_level : nat; so_variant : svariant }.
  (** lines 150-154 *)
  Definition sset := list soracle.

  (** lines 311-317: indexing *)
  Definition sget (ss : sset) (id : nat) : res soracle := of_opt (nth_error ss id).
  (** lines 222-229 *)
  Definition sadd (ss : sset) (o : soracle) : sset * nat := (ss ++ [o], length ss).


  (** lines 248-309.  The subtractions on lines 265 and 272 panic when they underflow. *)
  Definition instantiate_variant (os : oset L) (v : svariant) (n : nat) : res (variant L) :=
    match v with
    | SymCommitted => Ok Committed
    | SymTransparent p => Ok (Transparent p)
    | SymStructured c => Ok (Structured c)
    | SymRepeating id =>
      try m <- n_vars_of os id;
      if (n <? m)%nat then Panic else Ok (Repeating id (n - m))
    | SymProjected id values start =>
      try s <- match start with
               | Some o => Ok o
               | None => if (n <? length values)%nat then Panic else Ok (n - length values)%nat
               end;
      (* multilinear.rs lines 715-734 *)
      try m <- n_vars_of os id;
      if (m <? length values + s)%nat then Err else Ok (Projected id values s)
    | SymShifted id offset block sv =>
      (* multilinear.rs lines 797-825 *)
      try m <- n_vars_of os id;
      if (m <? block)%nat then Err
      else if ((offset =? 0) || (2 ^ block <=? offset))%nat then Err
      else Ok (Shifted id offset block sv)
    | SymPacked id d => Ok (Packed id d)
    | SymLinearCombination off inner =>
      try _ <- check_n_vars os n (map fst inner);
      Ok (LinearCombination n off inner)
    | SymZeroPadded id pad nz s =>
      (* multilinear.rs lines 748-776 *)
      try m <- n_vars_of os id;
      if (m <? s)%nat then Err
      else if (2 ^ pad <? nz)%nat then Err
      else Ok (ZeroPadded id pad nz s)
    | SymComposite inner c =>
      (* multilinear.rs lines 908-923 *)
      try _ <- check_n_vars os n inner;
      match optimize false true c with
      | None => Panic
      | Some c => if (length inner <? ArithModel.n_vars c)%nat then Err else Ok (Composite n inner c)
      end
    end.

  (** lines 178-186 *)
  Definition instance_n_vars (o : soracle) (size : nat) : nat :=
    match so_variant o with
    | SymTransparent p => mv_nvars p
    | _ => (log2_ceil size + so_lv o)%nat
    end.

  (** lines 161-205 *)
  Fixpoint instantiate_from (os : oset L) (ss : sset) (sizes : list nat) : res (oset L) :=
    match ss with
    | [] => Ok os
    | o :: ss =>
      match nth_error sizes (so_table o) with
      | None => Err
      | Some size =>
        if (size =? 0)%nat then instantiate_from (add_skip os) ss sizes
        else
          let n := instance_n_vars o size in
          try v <- instantiate_variant os (so_variant o) n;
          instantiate_from (fst (add_to_set os (mkOracle n (so_level o) v))) ss sizes
      end
    end.
  Definition instantiate (ss : sset) (sizes : list nat) : res (oset L) := instantiate_from [] ss sizes.

  (** The methods of [Builder], lines 326-596: [t] and [lv] are its table and [log_values_per_row]. *)
  (** lines 327-346 *)
  Definition sym_transparent (ss : sset) (t lv : nat) (p : mvpoly F) (level : nat) : res (sset * nat) :=
    if (L <? level)%nat then Err else Ok (sadd ss (mkSym t lv level (SymTransparent p))).
  (** lines 348-365 *)
  Definition sym_structured (ss : sset) (t lv : nat) (c : circuit F) : res (sset * nat) :=
    if (L <? circuit_level c)%nat then Err else Ok (sadd ss (mkSym t lv (circuit_level c) (SymStructured c))).
  (** lines 367-370, 583-594 *)
  Definition sym_committed (ss : sset) (t lv level : nat) : sset * nat := sadd ss (mkSym t lv level SymCommitted).
  (** lines 382-396 *)
  Definition sym_repeating (ss : sset) (t lv inner : nat) : res (sset * nat) :=
    try o <- sget ss inner; Ok (sadd ss (mkSym t lv (so_level o) (SymRepeating inner))).
  (** lines 398-428 *)
  Definition sym_shifted (ss : sset) (t lv inner offset block : nat) (sv : shift_variant) : res (sset * nat) :=
    if ((offset =? 0) || (2 ^ block <=? offset))%nat then Err
    else try o <- sget ss inner; Ok (sadd ss (mkSym t lv (so_level o) (SymShifted inner offset block sv))).
  (** lines 430-447 *)
  Definition sym_packed (ss : sset) (t lv inner d : nat) : res (sset * nat) :=
    try o <- sget ss inner; Ok (sadd ss (mkSym t lv (so_level o + d)%nat (SymPacked inner d))).
  (** lines 449-470 and 472-493; the level is that of the inner oracle, see the comment in the code *)
  Definition sym_projected (ss : sset) (t lv inner : nat) (values : list F) (start : option nat) : res (sset * nat) :=
    try o <- sget ss inner; Ok (sadd ss (mkSym t lv (so_level o) (SymProjected inner values start))).
  (** lines 502-530 *)
  Definition sym_linear_combination (ss : sset) (t lv : nat) (offset : F) (inner : list (nat * F)) : res (sset * nat) :=
    try levels <- rmap (fun ic => try o <- sget ss (fst ic); Ok (Nat.max (so_level o) (min_level (snd ic)))) inner;
    Ok (sadd ss (mkSym t lv (Nat.max (fold_right Nat.max 0%nat levels) (min_level offset)) (SymLinearCombination offset inner))).
  (** lines 532-557 *)
  Definition sym_composite (ss : sset) (t lv : nat) (inner : list nat) (c : circuit F) : res (sset * nat) :=
    try levels <- rmap (fun id => try o <- sget ss id; Ok (so_level o)) inner;
    Ok (sadd ss (mkSym t lv (fold_right Nat.max 0%nat levels) (SymComposite inner c))).
  (** lines 559-581 *)
  Definition sym_zero_padded (ss : sset) (t lv inner pad nz start : nat) : res (sset * nat) :=
    try o <- sget ss inner; Ok (sadd ss (mkSym t lv (so_level o) (SymZeroPadded inner pad nz start))).
End Model.
Arguments SymCommitted {_}.
Arguments SymTransparent {_} _.
Arguments SymStructured {_} _.
Arguments SymRepeating {_} _.
Arguments SymProjected {_} _ _ _.
Arguments SymShifted {_} _ _ _ _.
Arguments SymPacked {_} _ _.
Arguments SymLinearCombination {_} _ _.
Arguments SymZeroPadded {_} _ _ _ _.
Arguments SymComposite {_} _ _.
Arguments mkSym {_} _ _ _ _.
Arguments so_table {_} _.
Arguments so_lv {_} _.
Arguments so_level {_} _.
Arguments so_variant {_} _.
