(** Model of crates/math/src/binary_subspace.rs and of the evaluation domain factories of
    crates/math/src/univariate.rs.  A subspace is its list of basis elements. *)
Require Import Coq.Arith.Arith Coq.Lists.List Coq.Bool.Bool.
From Verif Require Import Base.Fld Base.Lists Base.Sums Math.UnivariateModel.
Import ListNotations.

(** usize::BITS *)
Definition usize_bits : nat := 64.

Section Model.
  Variable F : field.
  Local Open Scope fld_scope.

  (** binary_subspace.rs 33-38.  [basis_checked] is [F::basis_checked]; [None] is its error. *)
  Definition sub_with_dim (basis_checked : nat -> option F) (dim : nat) : res (list F) :=
    match omap basis_checked (seq 0 dim) with Some b => Ok b | None => Err end.

  (** lines 47-54 *)
  Definition sub_reduce_dim (basis : list F) (dim : nat) : res (list F) :=
    if (length basis <? dim)%nat then Err else Ok (firstn dim basis).

  (** lines 76-88; [index] is below [2^usize_bits] *)
  Definition sub_get (basis : list F) (index : nat) : F :=
    fold_left (fun acc '(i, b) => if Nat.testbit index i then acc + b else acc)
              (combine (seq 0 usize_bits) (firstn usize_bits basis)) 0.

  (** lines 90-98.  [1 << basis.len()] overflows the shift when the dimension is at least 64; the
      model panics there (debug builds; release builds mask the shift amount, see
      [sub_get_checked_wrapping]). *)
  Definition sub_get_checked (basis : list F) (index : nat) : res F :=
    if (usize_bits <=? length basis)%nat then Panic
    else if (2 ^ length basis <=? index)%nat then Err else Ok (sub_get basis index).

  Definition sub_get_checked_wrapping (basis : list F) (index : nat) : res F :=
    if (2 ^ (length basis mod usize_bits) <=? index)%nat then Err else Ok (sub_get basis index).

  (** lines 103-110; the range is inclusive *)
  Definition sub_iter (basis : list F) : list F :=
    let last := (if length basis <? usize_bits then 2 ^ length basis - 1 else 2 ^ usize_bits - 1)%nat in
    map (sub_get basis) (seq 0 (S last)).

  (** lines 113-118; [F::basis(i)] panics when [basis_checked] fails *)
  Definition sub_default (basis_checked : nat -> option F) (degree : nat) : option (list F) :=
    omap basis_checked (seq 0 degree).

  (** univariate.rs 89-98 *)
  Definition make_evaluation_points (basis : list F) (size : nat) : res (list F) :=
    let points := firstn size (sub_iter basis) in
    if (length points =? size)%nat then Ok points else Err.

  (** univariate.rs 66-74 *)
  Definition domain_create (basis : list F) (size : nat) : res (evdomain F) :=
    let with_infinity := (3 <=? size)%nat in
    try points <- make_evaluation_points basis (size - (if with_infinity then 1 else 0))%nat;
    from_points points with_infinity.
End Model.

Arguments sub_with_dim {_} _ _.
Arguments sub_reduce_dim {_} _ _.
Arguments sub_get {_} _ _.
Arguments sub_get_checked {_} _ _.
Arguments sub_get_checked_wrapping {_} _ _.
Arguments sub_iter {_} _.
Arguments sub_default {_} _ _.
Arguments make_evaluation_points {_} _ _.
Arguments domain_create {_} _ _.

(** binary_subspace.rs 57-64: [From] is applied to every basis element. *)
Definition sub_isomorphic {F G : field} (iota : F -> G) (basis : list F) : list G := map iota basis.

(** univariate.rs 76-88 *)
Definition domain_create_iso {F G : field} (iota : F -> G) (basis : list F) (size : nat) : res (evdomain G) :=
  let with_infinity := 3 <=? size in
  try points <- make_evaluation_points basis (size - (if with_infinity then 1 else 0));
  from_points (map iota points) with_infinity.
