(** Specification vocabulary of the additive NTT: the elements of a subspace, its (normalised)
    vanishing polynomials, and the novel polynomial basis.  Nothing here refers to the code. *)
Require Import Coq.Arith.Arith Coq.Lists.List.
From Verif Require Import Base.Fld Base.Sums.
Import ListNotations.
Local Open Scope fld_scope.

Section Spec.
  Context {F : field}.

  (** The [m]-th element of the span of [basis]: the sum of the basis elements at the set bits
      of [m]. *)
  Definition elem (basis : list F) (m : nat) : F :=
    sumn (length basis) (fun b => if Nat.testbit m b then nth b basis 0 else 0).

  (** Linear independence over the field with two elements. *)
  Definition lin_indep (basis : list F) : Prop :=
    forall m, (m < 2 ^ length basis)%nat -> elem basis m = 0 -> m = 0%nat.

  (** The monic polynomial with exactly the span of the first [i] basis elements as roots. *)
  Definition vanishing (basis : list F) (i : nat) (x : F) : F :=
    prodn (2 ^ i) (fun m => x - elem (firstn i basis) m).

  (** The same, scaled to take the value 1 at the next basis element. *)
  Definition norm_vanishing (basis : list F) (i : nat) (x : F) : F :=
    vanishing basis i x * finv (vanishing basis i (nth i basis 0)).

  (** The [j]-th novel basis polynomial: the product of the normalised vanishing polynomials at
      the set bits of [j] (its degree is [j]). *)
  Definition novel (basis : list F) (n j : nat) (x : F) : F :=
    prodn n (fun i => if Nat.testbit j i then norm_vanishing basis i x else 1).

  (** The polynomial with the [2^n] coefficients [c 0, c 1, ...] in the novel basis. *)
  Definition novel_poly (basis : list F) (n : nat) (c : nat -> F) (x : F) : F :=
    sumn (2 ^ n) (fun j => c j * novel basis n j x).

  (** The evaluation domain of dimension [n] of a transform over [basis] (DP24: the subspace
      [S^(l-n)], where [l] is the length of the basis): the image of the basis elements from the
      [l-n]-th on under the [l-n]-th normalised vanishing polynomial. *)
  Definition domain_basis (basis : list F) (n : nat) : list F :=
    map (fun j => norm_vanishing basis (length basis - n) (nth (length basis - n + j) basis 0)) (seq 0 n).

  (** Scalar [s], in natural order, of packed elements of [2^lw] scalars. *)
  Definition scalar_at (lw : nat) (data : list (list F)) (s : nat) : F :=
    nth (s mod 2 ^ lw) (nth (s / 2 ^ lw) data []) 0.

  (** The position in a [2^lz] by [2^ly] by [2^lx] tensor of the element at [(x, y, z)]: X varies
      fastest, then Y, then Z (NTTShape). *)
  Definition tensor_pos (lx ly z y x : nat) : nat := (z * 2 ^ (ly + lx) + y * 2 ^ lx + x)%nat.

  (** Packed elements of [2^lw] scalars each. *)
  Definition well_packed (lw : nat) (data : list (list F)) : Prop := forall p, In p data -> length p = (2 ^ lw)%nat.
End Spec.
