(** Packed fields over an unsigned underlier of 2^w bits (PackedPrimitiveType<U, Scalar>).

    The packed value is an [N] below 2^(2^w); scalars of level k occupy consecutive blocks of
    2^k bits.  Models the portable code: crates/field/src/arch/portable/packed_arithmetic.rs,
    packed.rs, packed_macros.rs, crates/field/src/underlier/underlier_with_bit_ops.rs and
    crates/field/src/packed.rs.  SIMD back-ends are not modelled. *)
Require Import Coq.NArith.NArith Coq.Arith.Arith Coq.Lists.List Coq.Bool.Bool.
Require Import Verif.Field.TowerModel.
Import ListNotations.
Local Open Scope N_scope.

(** Shl on the underlier type drops the bits beyond its width. *)
Definition shl (w : nat) (a n : N) : N := N.land (N.shiftl a n) (N.ones (nbits w)).

(** get_subvalue (underlier_with_bit_ops.rs 75-88) is [tget_base]. *)
Definition lane (k : nat) (a : N) (i : nat) : N := tget_base k a i.

(** set_subvalue: underlier_with_bit_ops.rs 95-106; single_element_mask (218-223, 390-401) for a T of
    2^k bits is all ones. *)
Definition set_lane (w k : nat) (a : N) (i : nat) (v : N) : N :=
  let mask := shl w (N.ones (nbits k)) (N.of_nat i * nbits k) in
  N.lor (N.ldiff a mask) (shl w v (N.of_nat i * nbits k)).

(** get_checked / set_checked: packed.rs 82-102 ([None] = IndexOutOfRange). *)
Definition get_checked (w k : nat) (a : N) (i : nat) : option N :=
  if (i <? 2 ^ (w - k))%nat then Some (lane k a i) else None.
Definition set_checked (w k : nat) (a : N) (i : nat) (v : N) : option N :=
  if (i <? 2 ^ (w - k))%nat then Some (set_lane w k a i v) else None.

(** from_fn: underlier_with_bit_ops.rs 34-49, packed.rs (portable) 371-374. *)
Definition from_fn (w k : nat) (f : nat -> N) : N :=
  fold_left (fun result i => N.lor result (shl w (f i) (N.of_nat i * nbits k)))
    (seq 0 (2 ^ (w - k))) 0.

(** from_scalars: packed.rs 174-185. *)
Definition from_scalars (w k : nat) (values : list N) : N :=
  fold_left (fun result '(i, v) => set_lane w k result i v)
    (combine (seq 0 (2 ^ (w - k))) values) 0.

(** The doubling loop `v |= v << (1 << (j + i))` for i = 0..m-1, used by masks, alphas and
    broadcast. *)
Fixpoint rep (w : nat) (v : N) (j m : nat) : N :=
  match m with
  | O => v
  | S m' => rep w (N.lor v (shl w v (nbits j))) (S j) m'
  end.

(** interleave_mask_even!: packed_arithmetic.rs 193-208; interleave_mask_odd!: 212-217. *)
Definition mask_even (w k : nat) : N := rep w (N.ones (nbits k)) (S k) (w - k - 1).
Definition mask_odd (w k : nat) : N := shl w (mask_even w k) (nbits k).

(** alphas!: packed_arithmetic.rs 171-189. *)
Definition alphas (w k : nat) : N :=
  rep w (match k with O => 1 | S k' => N.shiftl 1 (nbits k') end) (S k) (w - k - 1).

(** impl_broadcast!: packed_macros.rs 3-34 (fill_with_bit for 1-bit scalars, otherwise doubling). *)
Definition broadcast (w k : nat) (s : N) : N :=
  match k with
  | O => if s =? 0 then 0 else N.ones (nbits w)
  | S _ => rep w s k (w - k)
  end.

(** interleave on the underlier: packed_arithmetic.rs 221-233, 24-37 without the assertion. *)
Definition interleave_raw (w k : nat) (a b : N) : N * N :=
  let t := N.land (N.lxor (N.shiftr a (nbits k)) b) (mask_even w k) in
  (N.lxor a (shl w t (nbits k)), N.lxor b t).

(** UnderlierWithBitConstants::interleave: 24-37; the mask table has w entries. *)
Definition u_interleave (w : nat) (a b : N) (log_block_len : nat) : option (N * N) :=
  if (log_block_len <? w)%nat then Some (interleave_raw w log_block_len a b) else None.

(** UnderlierWithBitConstants::transpose: 39-49. *)
Definition u_transpose (w : nat) (a b : N) (log_block_len : nat) : option (N * N) :=
  if (log_block_len <? w)%nat then
    Some (fold_left (fun '(x, y) l => interleave_raw w l x y)
            (rev (seq log_block_len (w - log_block_len))) (a, b))
  else None.

(** PackedField::interleave / unzip: arch/portable/packed.rs 333-347 (None = assertion failure). *)
Definition p_interleave (w k : nat) (a b : N) (log_block_len : nat) : option (N * N) :=
  if (log_block_len <? w - k)%nat then u_interleave w a b (log_block_len + k) else None.
Definition p_unzip (w k : nat) (a b : N) (log_block_len : nat) : option (N * N) :=
  if (log_block_len <? w - k)%nat then u_transpose w a b (log_block_len + k) else None.

(** spread_fallback: underlier_with_bit_ops.rs 300-339, reached through PackedField::spread
    (packed.rs 267-276: the two assertions). *)
Definition spread (w k : nat) (value : N) (log_block_len block_idx : nat) : option N :=
  if ((log_block_len <=? w - k) && (block_idx <? 2 ^ (w - k - log_block_len)))%nat%bool then
    let block_offset := (block_idx * 2 ^ log_block_len)%nat in
    let log_repeat := (w - k - log_block_len)%nat in
    let result := fold_left
      (fun result i => set_lane w k result (i * 2 ^ log_repeat)%nat (lane k value (block_offset + i)))
      (seq 0 (2 ^ log_block_len)) 0 in
    Some (rep w result k log_repeat)
  else None.

(** xor_adjacent: packed_arithmetic.rs 235-244. *)
Definition xor_adjacent (w k : nat) (a : N) : N :=
  let t := N.land (N.lxor (N.shiftr a (nbits k)) a) (mask_even w k) in
  N.lxor t (shl w t (nbits k)).

(** TaggedMul<PackedStrategy>: packed_arithmetic.rs 107-169.  [submul] is the multiplication of the
    packed direct subfield (level k); the scalars have level k+1. *)
Definition packed_mul (w k : nat) (submul : N -> N -> N) (a b : N) : N :=
  let z0_even_z2_odd := submul a b in
  let '(lo, hi) := interleave_raw w k a b in
  let lo_plus_hi_a_even_b_odd := N.lxor lo hi in
  let odd_mask := mask_odd w k in
  let alpha_even_z2_odd := N.lxor (alphas w k) (N.land z0_even_z2_odd odd_mask) in
  let '(x, y) := interleave_raw w k lo_plus_hi_a_even_b_odd alpha_even_z2_odd in
  let z := submul x y in
  let zodd := N.land (N.lxor z (shl w z (nbits k))) odd_mask in
  N.lxor (xor_adjacent w k z0_even_z2_odd) zodd.

(** TaggedMulAlpha<PackedStrategy>: 246-269. *)
Definition packed_mul_alpha (w k : nat) (subalpha : N -> N) (a : N) : N :=
  let a0 := N.land a (mask_even w k) in
  let a1 := N.land a (mask_odd w k) in
  let z1 := subalpha a1 in
  N.lor (N.shiftr a1 (nbits k)) (N.lxor (shl w a0 (nbits k)) z1).

(** TaggedSquare<PackedStrategy>: 271-292. *)
Definition packed_square (w k : nat) (subsquare subalpha : N -> N) (a : N) : N :=
  let z_02 := subsquare a in
  let z_2a := N.land (subalpha z_02) (mask_odd w k) in
  let z_0_xor_z_2 := N.land (N.lxor z_02 (N.shiftr z_02 (nbits k))) (mask_even w k) in
  N.lor z_0_xor_z_2 z_2a.

(** TaggedInvertOrZero<PackedStrategy>: 294-325. *)
Definition packed_invert (w k : nat) (submul : N -> N -> N) (subsquare subalpha subinv : N -> N)
    (a : N) : N :=
  let a_1_even := N.shiftr a (nbits k) in
  let intermediate := N.lxor a (subalpha a_1_even) in
  let delta := N.lxor (submul a intermediate) (subsquare a_1_even) in
  let delta_inv := subinv delta in
  let dd := N.land delta_inv (mask_even w k) in
  let dd := N.lor dd (shl w dd (nbits k)) in
  let intermediate_a1 := N.lor (N.land a (mask_odd w k)) (N.land intermediate (mask_even w k)) in
  submul dd intermediate_a1.

(** Hybrid strategy: hybrid_recursive_arithmetics.rs 11-72; [al] is the scalar mul_alpha of level k,
    [mu] the scalar multiplication. *)
Definition hybrid_mul (w k : nat) (submul mu : N -> N -> N) (al : N -> N) (a b : N) : N :=
  let z0_z2 := submul a b in
  from_fn w (S k) (fun i =>
    let a0 := lo k (lane (S k) a i) in let a1 := hi k (lane (S k) a i) in
    let b0 := lo k (lane (S k) b i) in let b1 := hi k (lane (S k) b i) in
    let z0 := lo k (lane (S k) z0_z2 i) in let z2 := hi k (lane (S k) z0_z2 i) in
    let z0z2 := tadd z0 z2 in
    let z1 := tsub (mu (tadd a0 a1) (tadd b0 b1)) z0z2 in
    join k z0z2 (tadd z1 (al z2))).
Definition hybrid_square (w k : nat) (subsquare al : N -> N) (a : N) : N :=
  let z0_z1 := subsquare a in
  from_fn w (S k) (fun i =>
    let z0 := lo k (lane (S k) z0_z1 i) in let z2 := hi k (lane (S k) z0_z1 i) in
    join k (tadd z0 z2) (al z2)).
Definition hybrid_mul_alpha (w k : nat) (subalpha : N -> N) (a : N) : N :=
  let z1 := subalpha a in
  from_fn w (S k) (fun i =>
    let a0 := lo k (lane (S k) a i) in let a1 := hi k (lane (S k) a i) in
    join k a1 (tadd a0 (lane k z1 (2 * i + 1)))).

(** Pairwise strategies (pairwise_arithmetic.rs 12-66, pairwise_table_arithmetic.rs,
    pairwise_recursive_arithmetic.rs): the scalar operation applied to every lane. *)
Definition pairwise1 (w k : nat) (f : N -> N) (a : N) : N := from_fn w k (fun i => f (lane k a i)).
Definition pairwise2 (w k : nat) (f : N -> N -> N) (a b : N) : N :=
  from_fn w k (fun i => f (lane k a i) (lane k b i)).

(** PackedStrategy used at every level above the 1-bit scalars (packed_macros.rs 36-73 for those). *)
Fixpoint pmul_alpha (w k : nat) : N -> N :=
  match k with O => fun a => a | S k' => packed_mul_alpha w k' (pmul_alpha w k') end.
Fixpoint pmul (w k : nat) : N -> N -> N :=
  match k with O => N.land | S k' => packed_mul w k' (pmul w k') end.
Fixpoint psquare (w k : nat) : N -> N :=
  match k with O => fun a => a | S k' => packed_square w k' (psquare w k') (pmul_alpha w k') end.
Fixpoint pinvert (w k : nat) : N -> N :=
  match k with
  | O => fun a => a
  | S k' => packed_invert w k' (pmul w k') (psquare w k') (pmul_alpha w k') (pinvert w k')
  end.

(** PackedField::pow: packed.rs 190-200 with the packed operations. *)
Fixpoint ppow_bits (mul : N -> N -> N) (square : N -> N) (x res e : N) (i : nat) : N :=
  match i with
  | O => res
  | S i' =>
    let res := square res in
    let res := if N.testbit e (N.of_nat i') then mul res x else res in
    ppow_bits mul square x res e i'
  end.
Definition ppow (w k : nat) (mul : N -> N -> N) (square : N -> N) (x e : N) : N :=
  ppow_bits mul square x (broadcast w k 1) e 64.

(** PackedTransformation: packed_arithmetic.rs 327-388; the field degree is 2^k bits, OF::LOG_DEGREE = k. *)
Definition packed_transform (w k : nat) (bases : list N) (input : N) : N :=
  let ones := broadcast w k 1 in
  fst (fold_left (fun '(result, input) base =>
         let base_component := N.land input ones in
         let mask := rep w base_component 0 k in
         (N.lxor result (N.land mask (broadcast w k base)), N.shiftr input 1))
       bases (0, input)).
