(** Model of the M3 table builder (crates/m3/src/builder/{table,column,expr}.rs) and of what it means for a witness to
    satisfy a table.

    Simplifications: column names, namespaces, the table id and the partition of columns by stacking factor are left out
    (expressions refer to columns by their id in the table); all subfield values are elements of one field [F]; the type
    [FSub] of a committed column is only tracked for single bits, which makes the constraints of wider columns weaker than
    in the code. *)
Require Import Coq.Arith.Arith Coq.Lists.List Coq.Bool.Bool.
From Verif Require Import Base.Fld Base.Lists Base.Sums.
Import ListNotations.
Local Open Scope nat_scope.

Section Table.
  Variable F : field.

  Definition col := nat.

  (** expr.rs 20-27: arithmetic expressions over columns; subtraction is addition in [ArithExpr]
      (crates/math/src/arith_expr.rs 107-116). *)
  Inductive expr := EConst (c : F) | ECol (c : col) | EAdd (a b : expr) | EMul (a b : expr).
  Fixpoint edegree (e : expr) : nat := match e with EConst _ => 0 | ECol _ => 1 | EAdd a b => Nat.max (edegree a) (edegree b) | EMul a b => edegree a + edegree b end.

  (** crates/core/src/oracle/multilinear.rs ShiftVariant *)
  Inductive shift_variant := CircularLeft | LogicalLeft | LogicalRight.

  (** column.rs 125-178 ColumnDef: the variants used by the gadgets. *)
  Inductive coldef :=
  | DCommitted (bit : bool)
  | DSelected (c : col) (index index_bits : nat)
  | DShifted (c : col) (offset log_block_size : nat) (v : shift_variant)
  | DPacked (c : col) (log_degree : nat)
  | DComputed (e : expr)
  | DConstant (data : list F)
  | DStaticExp (bit_cols : list col) (base : F)
  | DDynamicExp (bit_cols : list col) (base : col).

  (** table.rs: the columns with their stacking factor, the zero constraints, and the columns asserted to be non-zero. *)
  Record table := mkTable { t_cols : list (nat * coldef); t_zero : list (nat * expr); t_nonzero : list (nat * col) }.
  Definition empty : table := mkTable [] [] [].

  (** *** The builder, as a state monad *)
  Definition builder (A : Type) := table -> A * table.
  Definition bret {A} (a : A) : builder A := fun t => (a, t).
  Definition bbind {A B} (m : builder A) (k : A -> builder B) : builder B := fun t => let (a, t) := m t in k a t.

  (** table.rs new_column *)
  Definition new_column (v : nat) (d : coldef) : builder col := fun t => (length (t_cols t), mkTable (t_cols t ++ [(v, d)]) (t_zero t) (t_nonzero t)).
  (** table.rs 114-129 *)
  Definition add_committed (v : nat) (bit : bool) : builder col := new_column v (DCommitted bit).
  (** [std::array::from_fn] with a builder call per element *)
  Fixpoint from_fn {A} (n start : nat) (f : nat -> builder A) : builder (list A) :=
    match n with 0 => bret [] | S n => bbind (f start) (fun a => bbind (from_fn n (S start) f) (fun l => bret (a :: l))) end.
  (** table.rs 131-140 *)
  Definition add_committed_multiple (n v : nat) (bit : bool) : builder (list col) := from_fn n 0 (fun _ => add_committed v bit).
  (** table.rs 142-165; the assertions on sizes hold for the constant arguments used by the gadgets. *)
  Definition add_shifted (v : nat) (c : col) (log_block_size offset : nat) (variant : shift_variant) : builder col := new_column v (DShifted c offset log_block_size variant).
  (** table.rs 167-190; [v] is the stacking factor of the packed column. *)
  Definition add_packed (v : nat) (c : col) (log_degree : nat) : builder col := new_column v (DPacked c log_degree).
  (** table.rs 561-575 *)
  Definition assert_zero (v : nat) (e : expr) : builder unit := fun t => (tt, mkTable (t_cols t) (t_zero t ++ [(v, e)]) (t_nonzero t)).
  (** table.rs 578-588 *)
  Definition assert_nonzero (v : nat) (c : col) : builder unit := fun t => (tt, mkTable (t_cols t) (t_zero t) (t_nonzero t ++ [(v, c)])).
  (** table.rs 199-249: linear expressions are virtual columns, others are committed and constrained. *)
  Definition add_computed (v : nat) (bit : bool) (e : expr) : builder col :=
    if edegree e <=? 1 then new_column v (DComputed e)
    else bbind (add_committed v bit) (fun c => bbind (assert_zero v (EAdd e (ECol c))) (fun _ => bret c)).
  (** table.rs 257-276; the column has [2^index_bits] values per row. *)
  Definition add_selected (c : col) (index index_bits : nat) : builder col := new_column 1 (DSelected c index index_bits).
  (** table.rs 375-402 *)
  Definition add_constant (data : list F) : builder col := new_column (length data) (DConstant data).
  (** table.rs 419-454, 471-506 *)
  Definition add_static_exp (bits : list col) (base : F) : builder col := new_column 1 (DStaticExp bits base).
  Definition add_dynamic_exp (bits : list col) (base : col) : builder col := new_column 1 (DDynamicExp bits base).

  (** *** Satisfaction.  A witness gives every column its values; the value of row [r] at stacking position [j] of a column
      with [v] values per row has index [r * v + j]. *)
  Definition wit := col -> nat -> F.
  (** crates/core/src/oracle: the basis used to pack sub-elements into one element (ext_basis) *)
  Variable basis : nat -> F.

  Fixpoint eeval (w : wit) (i : nat) (e : expr) : F := match e with EConst c => c | ECol c => w c i | EAdd a b => (eeval w i a + eeval w i b)%F | EMul a b => (eeval w i a * eeval w i b)%F end.

  (** Shift within blocks of [2^b] consecutive values. *)
  Definition shifted_value (f : nat -> F) (b offset : nat) (v : shift_variant) (i : nat) : F :=
    let n := 2 ^ b in
    let j := i mod n in
    match v with
    | LogicalLeft => if j <? offset then f0 else f (i - offset)
    | LogicalRight => if j + offset <? n then f (i + offset) else f0
    | CircularLeft => f (i - j + (j + n - offset) mod n)
    end.

  (** The power of [base] with the exponent given by bits, least significant first. *)
  Fixpoint exp_bits (base : F) (bits : list F) : F := match bits with [] => f1 | b :: r => ((if feqb b f0 then f1 else base) * exp_bits (base * base)%F r)%F end.

  Definition col_ok (n : nat) (w : wit) (id : col) (vd : nat * coldef) : Prop :=
    let (v, d) := vd in
    forall i, i < n * v ->
    match d with
    | DCommitted bit => bit = true -> w id i = f0 \/ w id i = f1
    | DSelected c index index_bits => w id i = w c (i * 2 ^ index_bits + index)
    | DShifted c offset b variant => w id i = shifted_value (w c) b offset variant i
    | DPacked c log_degree => w id i = sumn (2 ^ log_degree) (fun j => fmul (w c (i * 2 ^ log_degree + j)) (basis j))
    | DComputed e => w id i = eeval w i e
    | DConstant data => w id i = nth (i mod v) data f0
    | DStaticExp bits base => w id i = exp_bits base (map (fun c => w c i) bits)
    | DDynamicExp bits base => w id i = exp_bits (w base i) (map (fun c => w c i) bits)
    end.
  Definition zero_ok (n : nat) (w : wit) (ve : nat * expr) : Prop := forall i, i < n * fst ve -> eeval w i (snd ve) = f0.
  Definition nonzero_ok (n : nat) (w : wit) (vc : nat * col) : Prop := forall i, i < n * fst vc -> w (snd vc) i <> f0.

  (** The witness [w] with [n] rows satisfies the table. *)
  Definition satisfies (n : nat) (w : wit) (t : table) : Prop :=
    (forall id vd, nth_error (t_cols t) id = Some vd -> col_ok n w id vd) /\
    Forall (zero_ok n w) (t_zero t) /\ Forall (nonzero_ok n w) (t_nonzero t).
End Table.

Notation "'bld' x <- m ; k" := (bbind _ m (fun x => k)) (at level 200, x name, m at level 100, k at level 200).
Notation "'bdo' m ;; k" := (bbind _ m (fun _ => k)) (at level 200, m at level 100, k at level 200).
