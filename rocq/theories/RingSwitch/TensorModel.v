(** Model of crates/field/src/transpose.rs, crates/core/src/tensor_algebra.rs and
    crates/core/src/ring_switch/tower_tensor_algebra.rs. *)
Require Import Coq.Arith.Arith Coq.Lists.List Coq.Bool.Bool.
From Verif Require Import Base.Fld Base.Lists Base.Sums.
Import ListNotations.
Local Open Scope nat_scope.

(** *** Transposition.  A packed field element is the list of its [2^lw] scalars. *)
Section Transpose.
  Context {A : Type}.
  Variable d : A.

  (** packed.rs 203-220 PackedField::interleave with block length [2^i] (as specified there; the implementations are compared
      with this specification in Field/PackedProps.v, [packed_interleave]); None stands for a panic. *)
  Definition interleave (lw i : nat) (a b : list A) : option (list A * list A) :=
    if i <? lw then
      Some (map (fun l => if Nat.testbit l i then nth (l - 2 ^ i) b d else nth l a d) (seq 0 (2 ^ lw)),
            map (fun l => if Nat.testbit l i then nth l b d else nth (l + 2 ^ i) a d) (seq 0 (2 ^ lw)))
    else None.

  (** the pairs of indices visited in round [i] of the loop, transpose.rs 53-58: [j << (log_w + i + 1) | k] *)
  Definition pairs (log_n log_w i : nat) : list (nat * nat) :=
    flat_map (fun j => map (fun k => (j * 2 ^ (log_w + i + 1) + k, j * 2 ^ (log_w + i + 1) + k + 2 ^ (log_w + i))) (seq 0 (2 ^ (log_w + i)))) (seq 0 (2 ^ (log_n - i - 1))).
  (** transpose.rs 32-70 square_transpose; [lw] is P::LOG_WIDTH. *)
  Definition square_transpose (lw log_n : nat) (elems : list (list A)) : res (list (list A)) :=
    if lw <? log_n then Err else
    if negb (length elems =? 2 ^ Nat.log2 (length elems)) then Err else
    let log_size := Nat.log2 (length elems) in
    if log_size <? log_n then Err else
    let log_w := log_size - log_n in
    (* 50-66: the two elements of each pair are replaced by their interleaving *)
    match ofold (fun elems i => ofold (pair_step (fun _ _ => interleave lw i)) (pairs log_n log_w i) elems) (seq 0 log_n) elems with Some r => Ok r | None => Panic end.
End Transpose.

(** *** A field as an extension of degree [2^kappa] of one of its subfields: the coordinates of an element (values in the
    subfield, embedded) and the basis.  crates/field/src/extension.rs ExtensionField: [co i] is get_base / the items of
    iter_bases, [beta] is basis. *)
Record ext (F : field) (kappa : nat) := mkExt {
  insub : F -> Prop;
  co : nat -> F -> F;
  beta : nat -> F;
  beta_0 : beta 0 = f1;
  co_insub : forall i x, i < 2 ^ kappa -> insub (co i x);
  co_add : forall i x y, i < 2 ^ kappa -> co i (x + y)%F = (co i x + co i y)%F;
  co_smul : forall i s x, i < 2 ^ kappa -> insub s -> co i (s * x)%F = (s * co i x)%F;
  co_beta : forall i k, i < 2 ^ kappa -> k < 2 ^ kappa -> co k (beta i) = if k =? i then f1 else f0;
  co_sum : forall x, sumn (2 ^ kappa) (fun i => co i x * beta i)%F = x;
}.
Arguments insub {F kappa}. Arguments co {F kappa}. Arguments beta {F kappa}.

Section Tensor.
  Variable F : field.
  Variable kappa : nat.
  Variable E : ext F kappa.
  Local Open Scope fld_scope.
  Notation D := (2 ^ kappa)%nat.

  (** extension.rs iter_bases / from_bases, which are also the scalars of an element seen as a packed vector of subfield
      elements (PackedExtension::cast_bases). *)
  Definition to_bases (x : F) : list F := map (fun i => co E i x) (seq 0 D).
  Definition of_bases (l : list F) : F := sumn D (fun i => nth i l 0 * beta E i).

  (** tensor_algebra.rs 24-31: the elements.  [TensorAlgebra::new] 55-61 resizes to the degree. *)
  Definition tensor := list F.
  Definition tnew (elems : list F) : tensor := firstn D elems ++ repeat 0 (D - length elems).
  (** 33-44 default *)
  Definition tzero : tensor := repeat 0 D.
  (** 74-78 *)
  Definition tone : tensor := upd tzero 0 1.
  (** 85-95 *)
  Definition ttensor (vertical horizontal : F) : tensor := map (fun base => vertical * base) (to_bases horizontal).
  (** 98-105 *)
  Definition from_vertical (x : F) : tensor := upd (repeat 0 D) 0 x.
  (** 108-114; an empty element vector cannot occur *)
  Definition try_extract_vertical (t : tensor) : option F := if forallb (fun x => feqb x 0) (skipn 1 t) then Some (nth 0 t 0) else None.
  (** 117-122 *)
  Definition scale_vertical (t : tensor) (s : F) : tensor := map (fun x => x * s) t.
  (** 138-142; [expect] panics if the transposition fails *)
  Definition transpose (t : tensor) : res tensor :=
    match square_transpose 0 kappa kappa (map to_bases t) with Ok l => Ok (map of_bases l) | _ => Panic end.
  (** 131-133 *)
  Definition scale_horizontal (t : tensor) (s : F) : res tensor := try t <- transpose t; transpose (scale_vertical t s).
  (** 149-151; inner_product_unchecked stops at the shorter argument (field/src/util.rs 20-29) *)
  Definition fold_vertical (t : tensor) (coeffs : list F) : res F := try t <- transpose t; Ok (fsum (map (fun p => fst p * snd p) (combine t coeffs))).
  (** 165-205 add_assign (which changes the common positions), sum *)
  Fixpoint tadd (a b : tensor) : tensor := match a, b with x :: a, y :: b => x + y :: tadd a b | _, _ => a end.
  Definition tsum (l : list tensor) : tensor := fold_left tadd l tzero.
End Tensor.
