(** Bit-level model of the binary tower fields.

    A field element of tower level k is an [N] below 2^(2^k): the underlier value of
    BinaryField{1,2,4,8,16,32,64,128}b (crates/field/src/binary_field.rs 740-747).  The Rust code is
    macro-instantiated for levels 0..7; the model takes the level as a parameter. *)
Require Import Coq.NArith.NArith Coq.Lists.List Coq.Bool.Bool.
Import ListNotations.
Local Open Scope N_scope.

(** N_BITS of level k: 2^k.  binary_field.rs 28 and 44. *)
Definition nbits (k : nat) : N := N.shiftl 1 (N.of_nat k).

(** num_cast_from to a narrower underlier keeps the low bits (crates/field/src/underlier/underlier_type.rs,
    NumCast). *)
Definition trunc (k : nat) (a : N) : N := N.land a (N.ones (nbits k)).

(** From<$name> for (sub, sub): binary_field.rs 681-690. *)
Definition lo (k : nat) (a : N) : N := trunc k a.
Definition hi (k : nat) (a : N) : N := trunc k (N.shiftr a (nbits k)).

(** From<(sub, sub)> for $name: binary_field.rs 692-697. *)
Definition join (k : nat) (a b : N) : N := N.lor a (N.shiftl b (nbits k)).

(** Add / Sub: binary_field.rs 183-217 (both are XOR). *)
Definition tadd (a b : N) : N := N.lxor a b.
Definition tsub (a b : N) : N := N.lxor a b.

(** mul_alpha.  Level 0: binary_field_arithmetic.rs 87-90; above:
    arch/portable/pairwise_recursive_arithmetic.rs 50-65. *)
Fixpoint tmul_alpha (k : nat) (a : N) : N :=
  match k with
  | O => a
  | S k' =>
    let a0 := lo k' a in
    let a1 := hi k' a in
    let z1 := tmul_alpha k' a1 in
    join k' a1 (tadd a0 z1)
  end.

(** multiply.  Level 0: binary_field_arithmetic.rs 82-85; above (Karatsuba):
    arch/portable/pairwise_recursive_arithmetic.rs 12-31. *)
Fixpoint tmul (k : nat) (a b : N) : N :=
  match k with
  | O => N.land a b
  | S k' =>
    let a0 := lo k' a in let a1 := hi k' a in
    let b0 := lo k' b in let b1 := hi k' b in
    let z0 := tmul k' a0 b0 in
    let z2 := tmul k' a1 b1 in
    let z0z2 := tadd z0 z2 in
    let z1 := tsub (tmul k' (tadd a0 a1) (tadd b0 b1)) z0z2 in
    let z2a := tmul_alpha k' z2 in
    join k' z0z2 (tadd z1 z2a)
  end.

(** square.  Level 0: binary_field_arithmetic.rs 92-95; above:
    arch/portable/pairwise_recursive_arithmetic.rs 33-48. *)
Fixpoint tsquare (k : nat) (a : N) : N :=
  match k with
  | O => a
  | S k' =>
    let z0 := tsquare k' (lo k' a) in
    let z2 := tsquare k' (hi k' a) in
    join k' (tadd z0 z2) (tmul_alpha k' z2)
  end.

(** invert_or_zero.  Level 0: binary_field_arithmetic.rs 74-79; above:
    arch/portable/pairwise_recursive_arithmetic.rs 67-85. *)
Fixpoint tinv (k : nat) (a : N) : N :=
  match k with
  | O => a
  | S k' =>
    let a0 := lo k' a in let a1 := hi k' a in
    let a0z1 := tadd a0 (tmul_alpha k' a1) in
    let delta := tadd (tmul k' a0 a0z1) (tsquare k' a1) in
    let delta_inv := tinv k' delta in
    join k' (tmul k' delta_inv a0z1) (tmul k' delta_inv a1)
  end.

(** Field::invert: field.rs 79-82. *)
Definition tinvert (k : nat) (a : N) : option N :=
  let i := tinv k a in if i =? 0 then None else Some i.

(** Field::pow: field.rs 92-105.  [exp] is a little-endian list of 64-bit limbs; the inner loop
    goes over bits 63..0. *)
Fixpoint pow_bits (k : nat) (x res : N) (e : N) (i : nat) : N :=
  match i with
  | O => res
  | S i' =>
    let res := tsquare k res in
    let tmp := tmul k res x in
    let res := if N.testbit e (N.of_nat i') then tmp else res in
    pow_bits k x res e i'
  end.

Definition tpow (k : nat) (x : N) (exp : list N) : N :=
  fold_left (fun res e => pow_bits k x res e 64) (rev exp) 1.

(** From<sub> for ext (binary_field.rs 522-527): zero extension. *)
Definition tembed (a : N) : N := a.

(** TryFrom<ext> for sub (binary_field.rs 505-520), sub level j. *)
Definition ttry_from (j : nat) (a : N) : option N :=
  if N.shiftr a (nbits j) =? 0 then Some (trunc j a) else None.

(** Multiplication by an element of the subfield of level j (binary_field.rs 487-498: recursive
    on halves; 398-414 for the one-bit subfield: masking).  [tmul_sub d j a r]: ext level j + d. *)
Fixpoint tmul_sub (d j : nat) (a r : N) : N :=
  match d with
  | O => tmul j a r
  | S d' =>
    join (d' + j)%nat (tmul_sub d' j (lo (d' + j)%nat a) r) (tmul_sub d' j (hi (d' + j)%nat a) r)
  end.

(** fill_with_bit: all ones if the bit is one (underlier). *)
Definition tmul_1b (k : nat) (a r : N) : N :=
  N.land a (if r =? 0 then 0 else N.ones (nbits k)).

(** ExtensionField::basis_checked (binary_field.rs 599-607); sub level j, ext level j + d. *)
Definition tbasis (d j : nat) (i : N) : option N :=
  if nbits d <=? i then None else Some (N.shiftl 1 (i * nbits j)).

(** ExtensionField::get_base (binary_field.rs 650-656): the i-th block of 2^j bits. *)
Definition tget_base (j : nat) (a : N) (i : nat) : N :=
  trunc j (N.shiftr a (N.of_nat i * nbits j)).

(** ExtensionField::iter_bases (binary_field.rs 632-648): all blocks, low to high. *)
Definition titer_bases (d j : nat) (a : N) : list N :=
  map (tget_base j a) (seq 0 (Nat.pow 2 d)).

(** ExtensionField::from_bases_sparse (binary_field.rs 609-630).  The result of the last shift can
    not overflow because of the bound check; bits of an element beyond the width are impossible
    because elements are below 2^(2^j).  None models Err(ExtensionDegreeMismatch). *)
Fixpoint from_bases_loop (n_bits step : N) (elems : list N) (value shift : N) : option N :=
  match elems with
  | [] => Some value
  | e :: elems =>
    if n_bits <=? shift then None
    else from_bases_loop n_bits step elems (N.lor value (N.shiftl e shift)) (shift + step)
  end.

Definition tfrom_bases_sparse (d j : nat) (elems : list N) (log_stride : nat) : option N :=
  let n_bits := nbits (d + j)%nat in
  let step := N.land (N.shiftl (nbits j) (N.of_nat log_stride)) (n_bits - 1) in
  from_bases_loop n_bits step elems 0 0.

Definition tfrom_bases (d j : nat) (elems : list N) : option N :=
  tfrom_bases_sparse d j elems 0.

(** TowerField::min_tower_level (binary_field.rs 704-712); levels 0..k-1 are tried in order. *)
Fixpoint min_level_from (level : nat) (fuel : nat) (a : N) : nat :=
  match fuel with
  | O => level
  | S fuel => if N.shiftr a (nbits level) =? 0 then level else min_level_from (S level) fuel a
  end.
Definition tmin_level (k : nat) (a : N) : nat := min_level_from 0 k a.

(** mul_primitive (binary_field_arithmetic.rs 126-204, mul_alpha_as_repacked): the value is viewed as
    packed scalars of level iota+1 and mul_alpha is applied to every scalar.  [None] models
    Err(ExtensionDegreeMismatch); [d] is the number of levels between the element (level d+iota+1)
    and the scalar type. *)
Fixpoint tmap_lanes (f : N -> N) (d j : nat) (a : N) : N :=
  match d with
  | O => f a
  | S d' => join (d' + j)%nat (tmap_lanes f d' j (lo (d' + j)%nat a)) (tmap_lanes f d' j (hi (d' + j)%nat a))
  end.
Definition tmul_primitive (k iota : nat) (a : N) : option N :=
  if Nat.ltb iota k
  then Some (tmap_lanes (tmul_alpha (S iota)) (k - S iota)%nat (S iota) a)
  else None.
