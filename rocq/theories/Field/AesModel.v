(** Table-driven 2/4/8-bit arithmetic and the AES tower.

    Values are underlier bit patterns ([N]).  The AES tower of level d+3 is an [N] below
    2^(2^(d+3)); its base is AESTowerField8b. *)
Require Import Coq.NArith.NArith Coq.Lists.List Coq.Bool.Bool.
Require Import Verif.Field.TowerModel Verif.Field.Tables.
Import ListNotations.
Local Open Scope N_scope.

(** Indexing a table; out of range is a panic in Rust, [None] here. *)
Definition tbl (t : list N) (i : N) : option N := nth_error t (N.to_nat i).

(** mul_binary_tower_4b: pairwise_table_arithmetic.rs 32-54; used for 2b and 4b scalars.
    [a << 4] is on u8. *)
Definition mul_4b (a b : N) : option N :=
  let idx := N.lor (N.land (N.shiftl a 4) 255) b in
  match tbl MUL_4B_LOOKUP (N.shiftr idx 1) with
  | None => None
  | Some e => Some (N.land (N.shiftr e (N.land idx 1 * 4)) 15)
  end.

(** multiply_8b_using_log_table: pairwise_table_arithmetic.rs 167-192.  [None] would be an
    out-of-bounds (unchecked) access. *)
Definition mul_8b_log (log exp : list N) (lhs rhs : N) : option N :=
  if negb (lhs =? 0) && negb (rhs =? 0) then
    match tbl log lhs, tbl log rhs with
    | Some l, Some r =>
      let idx := l + r in
      let idx := if 254 <? idx then idx - 255 else idx in
      tbl exp idx
    | _, _ => None
    end
  else Some 0.

(** TaggedMul<PairwiseTableStrategy> for BinaryField8b: 56-107; AESTowerField8b: 109-165. *)
Definition mul_8b_table : N -> N -> option N := mul_8b_log LOG_TABLE EXP_TABLE.
Definition aes_mul_8b : N -> N -> option N := mul_8b_log AES_LOG_TABLE AES_EXP_TABLE.

(** unary_op_with_table: 194-203, instances 241, 263, 285, 307, 329-331, 353. *)
Definition square_8b_table : N -> option N := tbl BINARY_TOWER_8B_SQUARE_MAP.
Definition mul_alpha_8b_table : N -> option N := tbl BINARY_TOWER_8B_MUL_ALPHA_MAP.
Definition invert_8b_table : N -> option N := tbl BINARY_TOWER_8B_INVERT_MAP.
Definition aes_square_8b : N -> option N := tbl AES_TOWER_8B_SQUARE_MAP.
Definition aes_mul_alpha_8b : N -> option N := tbl AES_TOWER_8B_MUL_ALPHA_MAP.
Definition aes_invert_8b : N -> option N := tbl AES_TOWER_8B_INVERT_MAP.

(** FieldLinearTransformation::transform: linear_transformation.rs 54-60: fold over the bits of
    the input, adding basis_elem * bit. *)
Definition linear_transform (bases : list N) (data : N) : N :=
  fold_left (fun acc '(i, b) => tadd acc (if N.testbit data (N.of_nat i) then b else 0))
    (combine (seq 0 (length bases)) bases) 0.

(** AES_TO_BINARY_LINEAR_TRANSFORMATION / BINARY_TO_AES_LINEAR_TRANSFORMATION: aes_field.rs
    113-147. *)
Definition AES_TO_BINARY : list N := [0x01; 0x3c; 0x8c; 0x8a; 0x59; 0x7a; 0x53; 0x27].
Definition BINARY_TO_AES : list N := [0x01; 0xbc; 0xb0; 0xec; 0xd3; 0x8d; 0x2e; 0x58].
Definition aes_to_bin_8b : N -> N := linear_transform AES_TO_BINARY.
Definition bin_to_aes_8b : N -> N := linear_transform BINARY_TO_AES.

(** ISOMORPHIC_ALPHAS: aes_field.rs 230-235. *)
Definition ISOMORPHIC_ALPHAS : list N := [0xBC; 0xB0; 0xD3].

(** convert_as_packed_8b: aes_field.rs 269-305: the isomorphism byte by byte. *)
Definition aes_to_bin (d : nat) : N -> N := tmap_lanes aes_to_bin_8b d 3.
Definition bin_to_aes (d : nat) : N -> N := tmap_lanes bin_to_aes_8b d 3.

Definition get (o : option N) : N := match o with Some x => x | None => 0 end.

(** The 16b..128b AES fields use the recursive tower arithmetic
    (pairwise_recursive_arithmetic.rs 12-85) over AESTowerField8b.  [get] never meets [None]:
    theorem aes_tables_total. *)
Fixpoint amul_alpha (d : nat) (a : N) : N :=
  match d with
  | O => get (aes_mul_alpha_8b a)
  | S d' =>
    let k := (d' + 3)%nat in
    let a0 := lo k a in
    let a1 := hi k a in
    let z1 := amul_alpha d' a1 in
    join k a1 (tadd a0 z1)
  end.

Fixpoint amul (d : nat) (a b : N) : N :=
  match d with
  | O => get (aes_mul_8b a b)
  | S d' =>
    let k := (d' + 3)%nat in
    let a0 := lo k a in let a1 := hi k a in
    let b0 := lo k b in let b1 := hi k b in
    let z0 := amul d' a0 b0 in
    let z2 := amul d' a1 b1 in
    let z0z2 := tadd z0 z2 in
    let z1 := tsub (amul d' (tadd a0 a1) (tadd b0 b1)) z0z2 in
    let z2a := amul_alpha d' z2 in
    join k z0z2 (tadd z1 z2a)
  end.

Fixpoint asquare (d : nat) (a : N) : N :=
  match d with
  | O => get (aes_square_8b a)
  | S d' =>
    let k := (d' + 3)%nat in
    let z0 := asquare d' (lo k a) in
    let z2 := asquare d' (hi k a) in
    join k (tadd z0 z2) (amul_alpha d' z2)
  end.

Fixpoint ainv (d : nat) (a : N) : N :=
  match d with
  | O => get (aes_invert_8b a)
  | S d' =>
    let k := (d' + 3)%nat in
    let a0 := lo k a in let a1 := hi k a in
    let a0z1 := tadd a0 (amul_alpha d' a1) in
    let delta := tadd (amul d' a0 a0z1) (asquare d' a1) in
    let delta_inv := ainv d' delta in
    join k (amul d' delta_inv a0z1) (amul d' delta_inv a1)
  end.

(** mul_primitive: AESTowerField8b aes_field.rs 94-100, larger fields 237-267
    (impl_mul_primitive!, binary_field_arithmetic.rs 126-204: `mul_by` multiplies with the
    subfield scalar, i.e. lane-wise; `repack iota => T` applies mul_alpha on lanes of T). *)
Definition amul_primitive (d iota : nat) (a : N) : option N :=
  match iota with
  | O | S O => Some (tmap_lanes (fun x => amul 0 x (nth iota ISOMORPHIC_ALPHAS 0)) d 3 a)
  | S (S i) =>
    if Nat.leb i d then Some (tmap_lanes (amul_alpha i) (d - i) (i + 3) a) else None
  end.

(** min_tower_level of AESTowerField8b: aes_field.rs 87-92. *)
Definition aes_min_level_8b (a : N) : nat := if (a =? 0) || (a =? 1) then 0%nat else 3%nat.

(** is_aes_tower: aes_field.rs 103-111.  A field type is represented by a tag; TypeId equality is
    tag equality.  The first disjunct compares F with itself. *)
Inductive field_tag := TagBinary (level : nat) | TagAes (level : nat) | TagPolyval.
Definition tag_eqb (a b : field_tag) : bool :=
  match a, b with
  | TagBinary i, TagBinary j | TagAes i, TagAes j => Nat.eqb i j
  | TagPolyval, TagPolyval => true
  | _, _ => false
  end.
Definition is_aes_tower (F : field_tag) : bool :=
  tag_eqb F F || tag_eqb F (TagAes 4) || tag_eqb F (TagAes 5) || tag_eqb F (TagAes 6)
  || tag_eqb F (TagAes 7).
