(** Models of the small containers of `binius_utils`.

    /repo/crates/utils/src/sparse_index.rs, array_2d.rs, strided_array.rs

    Panics are [None].  [usize] arithmetic is not bounded here (the index products of `Array2D` and
    of the strided view are assumed not to wrap).  A `&mut T` handed out by an operation is modelled
    by the update the caller performs through it. *)
Require Import Coq.Arith.Arith Coq.Lists.List Coq.Bool.Bool.
Require Import Verif.Base.Lists.
Import ListNotations.

(** * SparseIndex (sparse_index.rs) *)
Section Sparse.
Context {T : Type}.

(** [SparseIndex], lines 5-7: the vector of entries. *)
Definition sparse := list (option T).

(** [new] / [default], lines 10-12 and 85-89. *)
Definition sp_new : sparse := [].
(** [with_capacity], lines 14-18. *)
Definition sp_with_capacity (c : nat) : sparse := repeat None c.
(** `Vec::resize_with(n, || None)` when it grows the vector. *)
Definition sp_resize (s : sparse) (n : nat) : sparse := s ++ repeat None (n - length s).
(** Lines 21-23 and 36-38. *)
Definition sp_grow (s : sparse) (id : nat) : sparse :=
  if length s <=? id then sp_resize s (id + 1) else s.
(** [get], lines 27-29. *)
Definition sp_get (s : sparse) (id : nat) : option T :=
  match nth_error s id with Some o => o | None => None end.
(** A write through [get_mut], lines 31-33 (nothing happens when it returns `None`). *)
Definition sp_modify (s : sparse) (id : nat) (f : T -> T) : sparse :=
  match nth_error s id with
  | Some (Some v) => upd s id (Some (f v))
  | _ => s
  end.
(** [set], lines 35-40. *)
Definition sp_set (s : sparse) (id : nat) (v : T) : sparse :=
  upd (sp_grow s id) id (Some v).
(** [entry(id).or_insert(v)] followed by the update [f] through the returned reference, lines 20-25
    and 133-141 ([or_insert_with] is the same with [v] computed on demand). *)
Definition sp_entry_or_insert (s : sparse) (id : nat) (v : T) (f : T -> T) : sparse :=
  let s' := sp_grow s id in
  let cur := match sp_get s' id with Some x => x | None => v end in
  upd s' id (Some (f cur)).
(** [contains_key], lines 42-44. *)
Definition sp_contains (s : sparse) (id : nat) : bool :=
  match nth_error s id with Some (Some _) => true | _ => false end.
(** [is_empty], lines 46-48. *)
Definition sp_is_empty (s : sparse) : bool :=
  forallb (fun v => match v with Some _ => false | None => true end) s.
(** `Iterator::flatten` over options, and `filter_map` *)
Fixpoint flatten {A} (l : list (option A)) : list A :=
  match l with
  | [] => []
  | Some a :: t => a :: flatten t
  | None :: t => flatten t
  end.
(** [len], lines 50-52. *)
Definition sp_len (s : sparse) : nat := length (flatten s).
(** `enumerate` from a starting index *)
Fixpoint enum_from {A} (n : nat) (l : list A) : list (nat * A) :=
  match l with [] => [] | x :: t => (n, x) :: enum_from (S n) t end.
(** [iter] and [into_iter], lines 54-59 and 99-104. *)
Definition sp_iter (s : sparse) : list (nat * T) :=
  flatten (map (fun p => match snd p with Some v => Some (fst p, v) | None => None end) (enum_from 0 s)).
(** [keys], lines 68-73. *)
Definition sp_keys (s : sparse) : list nat :=
  flatten (map (fun p => match snd p with Some _ => Some (fst p) | None => None end) (enum_from 0 s)).
(** [values], lines 75-77. *)
Definition sp_values (s : sparse) : list T := flatten s.
(** Applying [f] to every element through [values_mut], lines 79-81 ([iter_mut], 61-66, is the same
    with the key available). *)
Definition sp_values_mut (s : sparse) (f : T -> T) : sparse := map (option_map f) s.
(** [from_iter], lines 107-115. *)
Definition sp_from_iter (l : list (nat * T)) : sparse :=
  fold_left (fun s p => sp_set s (fst p) (snd p)) l sp_new.
(** [Index], lines 120-122: `get(..).unwrap()`. *)
Definition sp_index (s : sparse) (id : nat) : option T := sp_get s id.

(** The mutating operations, for histories. *)
Inductive sp_op :=
| OpSet (id : nat) (v : T)
| OpEntry (id : nat) (v : T) (f : T -> T)
| OpModify (id : nat) (f : T -> T)
| OpValuesMut (f : T -> T).
Definition sp_apply (s : sparse) (o : sp_op) : sparse :=
  match o with
  | OpSet id v => sp_set s id v
  | OpEntry id v f => sp_entry_or_insert s id v f
  | OpModify id f => sp_modify s id f
  | OpValuesMut f => sp_values_mut s f
  end.
Definition sp_run (s : sparse) (h : list sp_op) : sparse := fold_left sp_apply h s.
End Sparse.
Arguments sparse : clear implicits.
Arguments sp_op : clear implicits.

(** * Array2D (array_2d.rs) *)
(** Lines 8-13. *)
Record array2 (T : Type) := mkA2 { a2_data : list T; a2_rows_f : nat; a2_cols : nat }.
Arguments mkA2 {T}.
Arguments a2_data {T}.
Arguments a2_rows_f {T}.
Arguments a2_cols {T}.

Section A2.
Context {T : Type} (dflt : T).

(** [new] and [zeroes], lines 17-35. *)
Definition a2_new (rows cols : nat) : array2 T := mkA2 (repeat dflt (rows * cols)) rows cols.
(** [rows], lines 40-42. *)
Definition a2_rows (a : array2 T) : option nat :=
  if a2_cols a =? 0 then None else Some (length (a2_data a) / a2_cols a).
(** `&data[start..end]` *)
Definition slice_range {A} (l : list A) (s e : nat) : option (list A) :=
  if (s <=? e) && (e <=? length l) then Some (firstn (e - s) (skipn s l)) else None.
(** [get_row], lines 50-53. *)
Definition a2_get_row (a : array2 T) (i : nat) : option (list T) :=
  let start := i * a2_cols a in slice_range (a2_data a) start (start + a2_cols a).
(** [iter_rows], lines 56-58. *)
Definition a2_iter_rows (a : array2 T) : option (list (list T)) :=
  omap (a2_get_row a) (seq 0 (a2_rows_f a)).
(** [reshape] / [reshape_mut], lines 69-79 and 98-108. *)
Definition a2_reshape (a : array2 T) (rows cols : nat) : option (array2 T) :=
  if negb (rows * cols =? length (a2_data a)) then None else Some (mkA2 (a2_data a) rows cols).
(** [Index], lines 114-116. *)
Definition a2_index (a : array2 T) (i j : nat) : option T :=
  nth_error (a2_data a) (i * a2_cols a + j).
(** Assignment through [IndexMut], lines 120-122. *)
Definition a2_set (a : array2 T) (i j : nat) (v : T) : option (array2 T) :=
  if i * a2_cols a + j <? length (a2_data a)
  then Some (mkA2 (upd (a2_data a) (i * a2_cols a + j) v) (a2_rows_f a) (a2_cols a))
  else None.
(** [sum_rows], lines 127-137, with [add] the `AddAssign` of the element type. *)
Definition add_row (add : T -> T -> T) (sum : list T) (row : list T) : option (list T) :=
  ofold (fun s p =>
           do x <- nth_error s (fst p);
           Some (upd s (fst p) (add x (snd p))))
        (combine (seq 0 (length row)) row) sum.
Definition a2_sum_rows (add : T -> T -> T) (a : array2 T) : option (list T) :=
  do rows <- a2_iter_rows a;
  ofold (add_row add) rows (repeat dflt (a2_cols a)).
End A2.

(** * StridedArray2DViewMut (strided_array.rs) *)
(** Lines 17-22; [sv_len] is `data.len()`, the element values are not needed. *)
Record sview := mkSv { sv_len : nat; sv_dw : nat; sv_h : nat; sv_start : nat; sv_end : nat }.
(** [without_stride], lines 26-40 (`None` is the error). *)
Definition sv_without_stride (len height width : nat) : option sview :=
  if negb (width * height =? len) then None else Some (mkSv len width height 0 width).
(** [width], lines 70-72. *)
Definition sv_width (v : sview) : nat := sv_end v - sv_start v.
(** The offset used by [get_unchecked_ref] / [get_unchecked_mut], lines 45-64. *)
Definition sv_offset (v : sview) (i j : nat) : nat := i * sv_dw v + j + sv_start v.
(** The element addressed by [Index] / [IndexMut], lines 139-151. *)
Definition sv_index (v : sview) (i j : nat) : option nat :=
  if (i <? sv_h v) && (j <? sv_width v) then Some (sv_offset v i j) else None.
(** The elements yielded by [iter_column_mut], lines 75-85. *)
Definition sv_column (v : sview) (col : nat) : option (list nat) :=
  if col <? sv_width v
  then let start := col + sv_start v in Some (map (fun i => i * sv_dw v + start) (seq 0 (sv_h v)))
  else None.
(** `Range::step_by`: the visited values; a zero step panics. *)
Definition step_by (s e step : nat) : option (list nat) :=
  if step =? 0 then None
  else Some (map (fun k => s + k * step) (seq 0 ((e - s + (step - 1)) / step))).
(** [into_strides] / [into_par_strides], lines 89-133. *)
Definition sv_into_strides (v : sview) (stride : nat) : option (list sview) :=
  do starts <- step_by (sv_start v) (sv_end v) stride;
  Some (map (fun start => mkSv (sv_len v) (sv_dw v) (sv_h v) start (Nat.min (start + stride) (sv_end v))) starts).
