(** Slices of packed field elements: crates/field/src/packed.rs 290-475 and transpose.rs.

    A slice of packed elements is a list of underlier values.  The branch taken for packed fields
    whose scalars are addressable in memory (is_packed_field_indexable) reads the same bytes and is
    not modelled separately.  None models a panic. *)
Require Import Coq.NArith.NArith Coq.Arith.Arith Coq.Lists.List Coq.Bool.Bool.
Require Import Verif.Base.Lists Verif.Field.TowerModel Verif.Field.PackedModel.
Import ListNotations.

(** len_packed_slice: packed.rs 409-411. *)
Definition len_packed_slice (w k : nat) (p : list N) : nat := length p * 2 ^ (w - k).

(** get_packed_slice(_checked): 311-354. *)
Definition get_packed_slice (w k : nat) (p : list N) (i : nat) : option N :=
  match nth_error p (i / 2 ^ (w - k)) with
  | Some v => Some (lane k v (i mod 2 ^ (w - k)))
  | None => None
  end.

(** set_packed_slice(_checked): 356-407. *)
Definition set_packed_slice (w k : nat) (p : list N) (i : nat) (s : N) : option (list N) :=
  match nth_error p (i / 2 ^ (w - k)) with
  | Some v => Some (upd p (i / 2 ^ (w - k)) (set_lane w k v (i mod 2 ^ (w - k)) s))
  | None => None
  end.

(** slice::chunks(n) / slice::chunks_exact(n) with its remainder.  [fuel] is the slice length. *)
Fixpoint chunks_fuel {A} (fuel n : nat) (l : list A) : list (list A) :=
  match fuel, l with
  | _, [] => []
  | O, _ => []
  | S f, _ => firstn n l :: chunks_fuel f n (skipn n l)
  end.
Definition chunks {A} (n : nat) (l : list A) : list (list A) := chunks_fuel (length l) n l.
Definition chunks_exact {A} (n : nat) (l : list A) : list (list A) :=
  chunks n (firstn (length l / n * n) l).
Definition remainder {A} (n : nat) (l : list A) : list A := skipn (length l / n * n) l.

(** pack_slice: 442-448. *)
Definition pack_slice (w k : nat) (scalars : list N) : list N :=
  map (from_scalars w k) (chunks (2 ^ (w - k)) scalars).

(** `for (chunk, packed) in chunks.zip(packed.iter_mut()) { *packed = f(chunk) }`. *)
Fixpoint zip_write {A B} (f : A -> B) (src : list A) (dst : list B) : list B :=
  match src, dst with
  | a :: src, _ :: dst => f a :: zip_write f src dst
  | _, _ => dst
  end.

(** copy_packed_from_scalars_slice: 450-474, the branch for packed types that cannot be unpacked.
    The remainder is written to packed\[offset\] with offset = (len >> LOG_WIDTH) << LOG_WIDTH. *)
Definition copy_packed_from_scalars_slice (w k : nat) (src dst : list N) : option (list N) :=
  let width := (2 ^ (w - k))%nat in
  let dst := zip_write (from_scalars w k) (chunks_exact width src) dst in
  match remainder width src with
  | [] => Some dst
  | rem =>
    let offset := (length src / width * width)%nat in
    match nth_error dst offset with
    | None => None
    | Some packed =>
      Some (upd dst offset
        (fold_left (fun p '(i, s) => set_lane w k p i s) (combine (seq 0 (length rem)) rem) packed))
    end
  end.

(** iter_packed_slice_with_offset: 298-309. *)
Definition iter_packed_slice_with_offset (w k : nat) (p : list N) (offset : nat) : list N :=
  let width := (2 ^ (w - k))%nat in
  let '(p, offset) :=
    if (offset <? length p * width)%nat then (skipn (offset / width) p, offset mod width)
    else ([], O) in
  skipn offset (flat_map (fun v => map (lane k v) (seq 0 width)) p).

(** packed_from_fn_with_offset: 417-423. *)
Definition packed_from_fn_with_offset (w k offset : nat) (f : nat -> N) : N :=
  from_fn w k (fun i => f (i + offset * 2 ^ (w - k)))%nat.

(** mul_by_subfield_scalar: 426-440; scalars of level j + d, multiplier of level j.  [pmulj] is the
    packed multiplication of the cast packed subfield. *)
Definition mul_by_subfield_scalar (w d j : nat) (pmulj : N -> N -> N) (val multiplier : N) : N :=
  if (((j =? 0) && (8 <? 2 ^ (d + j))) || (32 <=? 2 ^ (d + j)))%nat%bool
  then from_fn w (d + j) (fun i => tmul_sub d j (lane (d + j) val i) multiplier)
  else pmulj val (broadcast w j multiplier).

(** square_transpose: transpose.rs 29-69. *)
Definition transpose_pairs (log_n log_w i : nat) : list (nat * nat) :=
  map (fun '(j, k) =>
         let idx0 := Nat.lor (Nat.shiftl j (log_w + i + 1)) k in
         (idx0, Nat.lor idx0 (Nat.shiftl 1 (log_w + i))))
      (list_prod (seq 0 (2 ^ (log_n - i - 1))) (seq 0 (2 ^ (log_w + i)))).

Inductive transpose_error := SquareBlockDimensionMustDivideWidth | InvalidBufferSize.
Inductive transpose_result := TransposeErr (e : transpose_error) | TransposePanic | TransposeOk (l : list N).

Definition square_transpose (w k log_n : nat) (elems : list N) : transpose_result :=
  if (w - k <? log_n)%nat then TransposeErr SquareBlockDimensionMustDivideWidth
  else
    let size := length elems in
    let log_size := Nat.log2 size in
    if negb (size =? 2 ^ log_size)%nat then TransposeErr InvalidBufferSize
    else if (log_size <? log_n)%nat then TransposeErr InvalidBufferSize
    else
      let log_w := (log_size - log_n)%nat in
      match ofold (fun l i =>
              ofold (pair_step (fun _ _ v0 v1 => p_interleave w k v0 v1 i))
                (transpose_pairs log_n log_w i) l)
            (seq 0 log_n) elems with
      | Some l => TransposeOk l
      | None => TransposePanic
      end.
