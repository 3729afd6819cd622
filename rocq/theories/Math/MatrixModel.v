(** Model of crates/math/src/matrix.rs. *)
Require Import Coq.Arith.Arith Coq.Lists.List Coq.Bool.Bool.
From Verif Require Import Base.Fld Base.Lists Base.Sums Math.MleModel.
Import ListNotations.

(** [dst[pos..pos + src.len()].copy_from_slice(src)], where the range is known to be in bounds *)
Definition splice {A} (dst : list A) (pos : nat) (src : list A) : list A :=
  firstn pos dst ++ src ++ skipn (pos + length src) dst.

Section Model.
  Variable F : field.
  Local Open Scope fld_scope.

  (** lines 16-26: row-major elements *)
  Record matrix : Type := mkMat { mt_m : nat; mt_n : nat; mt_el : list F }.

  (** lines 29-41 *)
  Definition mat_new (m n : nat) (el : list F) : res matrix :=
    if (length el =? m * n)%nat then Ok (mkMat m n el) else Err.

  (** lines 43-49 *)
  Definition mat_zeros (m n : nat) : matrix := mkMat m n (repeat 0 (m * n)).

  (** lines 203-211 (Index); [None]: a failed assertion or an index out of bounds *)
  Definition mat_get (a : matrix) (i j : nat) : option F :=
    if (i <? mt_m a)%nat && (j <? mt_n a)%nat then nth_error (mt_el a) (i * mt_n a + j) else None.

  (** lines 213-219 (IndexMut) *)
  Definition mat_set (a : matrix) (i j : nat) (v : F) : option matrix :=
    if (i <? mt_m a)%nat && (j <? mt_n a)%nat && (i * mt_n a + j <? length (mt_el a))%nat
    then Some (mkMat (mt_m a) (mt_n a) (upd (mt_el a) (i * mt_n a + j) v)) else None.

  (** lines 51-57 *)
  Definition mat_identity (n : nat) : option matrix :=
    ofold (fun a i => mat_set a i i 1) (seq 0 n) (mat_zeros n n).

  (** lines 59-65 *)
  Definition fill_identity (a : matrix) : option matrix :=
    if (mt_m a =? mt_n a)%nat then
      ofold (fun a i => mat_set a i i 1) (seq 0 (mt_n a))
            (mkMat (mt_m a) (mt_n a) (repeat 0 (length (mt_el a))))
    else None.

  (** lines 87-97.  Every element of [c] is overwritten. *)
  Definition mul_into (a b c : matrix) : option matrix :=
    if (mt_n a =? mt_m b)%nat && (mt_m a =? mt_m c)%nat && (mt_n b =? mt_n c)%nat then
      ofold (fun c ij =>
               do s <- osum (mt_n a) (fun k => do x <- mat_get a (fst ij) k; do y <- mat_get b k (snd ij); Some (x * y));
               mat_set c (fst ij) (snd ij) s)
            (list_prod (seq 0 (mt_m c)) (seq 0 (mt_n c))) c
    else None.

  (** lines 99-106 *)
  Definition mul_vec_into (a : matrix) (x y : list F) : option (list F) :=
    if (mt_n a =? length x)%nat && (mt_m a =? length y)%nat then
      omap (fun i => osum (mt_n a) (fun j => do xj <- nth_error x j; do aij <- mat_get a i j; Some (xj * aij)))
           (seq 0 (length y))
    else None.

  (** lines 163-171 *)
  Definition row_range (a : matrix) (i : nat) : bool :=
    (i <? mt_m a)%nat && ((i + 1) * mt_n a <=? length (mt_el a))%nat.
  Definition row_of (a : matrix) (i : nat) : list F := firstn (mt_n a) (skipn (i * mt_n a) (mt_el a)).

  (** lines 173-186; the buffer holds [n] elements and is overwritten before it is read *)
  Definition swap_rows (a : matrix) (i0 i1 : nat) : option matrix :=
    if (i0 <? mt_m a)%nat && (i1 <? mt_m a)%nat then
      if (i0 =? i1)%nat then Some a
      else if row_range a i0 && row_range a i1 then
        let buffer := row_of a i1 in
        let el := splice (mt_el a) (i1 * mt_n a) (row_of a i0) in
        Some (mkMat (mt_m a) (mt_n a) (splice el (i0 * mt_n a) buffer))
      else None
    else None.

  (** lines 188-192 *)
  Definition scale_row (a : matrix) (i : nat) (c : F) : option matrix :=
    if row_range a i then
      Some (mkMat (mt_m a) (mt_n a) (splice (mt_el a) (i * mt_n a) (map (fun x => x * c) (row_of a i))))
    else None.

  (** lines 194-202 *)
  Definition sub_pivot_row (a : matrix) (i0 i1 : nat) (c : F) : option matrix :=
    if (i0 <? mt_m a)%nat && (i1 <? mt_m a)%nat then
      ofold (fun a j => do x <- mat_get a i1 j; do y <- mat_get a i0 j; mat_set a i0 j (y - x * c))
            (seq 0 (mt_n a)) a
    else None.

  (** lines 133-135: the first row at or below [i] with a nonzero entry in column [i] *)
  Fixpoint find_pivot (a : matrix) (i : nat) (rows : list nat) : option (option nat) :=
    match rows with
    | [] => Some None
    | p :: rs => do x <- mat_get a p i; if feqb x 0 then find_pivot a i rs else Some (Some p)
    end.

  (** lines 131-157: one iteration of the elimination on (tmp, out) *)
  Definition elim_step (st : matrix * matrix) (i : nat) : res (matrix * matrix) :=
    let '(tmp, out) := st in
    let n := mt_n tmp in
    try p <- of_opt (find_pivot tmp i (seq i (n - i)));
    match p with
    | None => Err
    | Some pivot =>
      try st1 <- of_opt (if (pivot =? i)%nat then Some (tmp, out)
                         else do t <- swap_rows tmp i pivot; do o <- swap_rows out i pivot; Some (t, o));
      try d <- of_opt (mat_get (fst st1) i i);
      if feqb d 0 then Panic
      else
        let scalar := finv d in
        try st2 <- of_opt (do t <- scale_row (fst st1) i scalar; do o <- scale_row (snd st1) i scalar; Some (t, o));
        of_opt (ofold (fun s j =>
                  do c <- mat_get (fst s) j i;
                  do t <- sub_pivot_row (fst s) j i c;
                  do o <- sub_pivot_row (snd s) j i c;
                  Some (t, o)) (seq 0 i ++ seq (i + 1) (n - (i + 1))) st2)
    end.

  Fixpoint elim_loop (st : matrix * matrix) (is : list nat) : res (matrix * matrix) :=
    match is with
    | [] => Ok st
    | i :: r => try st' <- elim_step st i; elim_loop st' r
    end.

  (** lines 108-161 (the final [debug_assert] compares [tmp] with the identity) *)
  Definition inverse_into (a out : matrix) : res matrix :=
    if (mt_m a =? mt_m out)%nat && (mt_n a =? mt_n out)%nat then
      if (mt_m a =? mt_n a)%nat then
        try o <- of_opt (fill_identity out);
        try st <- elim_loop (a, o) (seq 0 (mt_n a));
        Ok (snd st)
      else Err
    else Panic.
End Model.

Arguments mkMat {_} _ _ _.
Arguments mt_m {_} _.
Arguments mt_n {_} _.
Arguments mt_el {_} _.
Arguments mat_new {_} _ _ _.
Arguments mat_zeros {_} _ _.
Arguments mat_get {_} _ _ _.
Arguments mat_set {_} _ _ _ _.
Arguments mat_identity {_} _.
Arguments fill_identity {_} _.
Arguments mul_into {_} _ _ _.
Arguments mul_vec_into {_} _ _ _.
Arguments row_range {_} _ _.
Arguments row_of {_} _ _.
Arguments swap_rows {_} _ _ _.
Arguments scale_row {_} _ _ _.
Arguments sub_pivot_row {_} _ _ _ _.
Arguments find_pivot {_} _ _ _.
Arguments elim_step {_} _ _.
Arguments elim_loop {_} _ _.
Arguments inverse_into {_} _ _.
