(** Model of the reference compute layer: crates/compute/src/cpu/layer.rs, and of the parts of layer.rs,
    memory.rs and ops.rs it uses.  Device slices are lists ([CpuMemory::ALIGNMENT] is 1).  Machine sizes are
    unbounded; an arithmetic underflow is a panic, as in builds with overflow checks.  [fri_fold] of this layer is
    in Fri/FriFolds.v, the bump allocator in AllocModel.v. *)
Require Import Coq.setoid_ring.Ring Coq.Arith.Arith Coq.Lists.List Coq.Bool.Bool Lia.
From Verif Require Import Base.Fld Base.Lists Base.Sums Math.ArithModel.
Import ListNotations.
Local Open Scope nat_scope.

(** [usize::ilog2], which panics on 0. *)
Definition ilog2 (n : nat) : res nat := if n =? 0 then Panic else Ok (Nat.log2 n).
(** Subtraction with overflow checks. *)
Definition usub (a b : nat) : res nat := if a <? b then Panic else Ok (a - b).
(** binius_utils::checked_arithmetics::strict_log_2 (utils/src/checked_arithmetics.rs 33-44). *)
Definition strict_log (n : nat) : option nat :=
  if n =? 0 then None else if n =? 2 ^ Nat.log2 n then Some (Nat.log2 n) else None.
(** checked_log_2 (46-52): panics unless the argument is a power of two. *)
Definition checked_log (n : nat) : res nat := of_opt (strict_log n).

(** The first Err or Panic, or all results (an iterator driven to the end by [?] in a loop). *)
Fixpoint rmap {A B} (f : A -> res B) (l : list A) : res (list B) :=
  match l with [] => Ok [] | x :: r => try y <- f x; try ys <- rmap f r; Ok (y :: ys) end.

Section Layer.
  Variable F : field.
  Local Open Scope fld_scope.
  (** [F::TOWER_LEVEL], and [ExtensionField::iter_bases] to the subfield of a level, its values embedded in [F]. *)
  Variable top : nat.
  Variable iter_bases : nat -> F -> list F.

  (** each_tower_subfield! (cpu/tower_macro.rs 3-32): the levels that are dispatched. *)
  Definition supported (level : nat) : bool := existsb (Nat.eqb level) [0; 3; 4; 5; 6; 7]%nat.

  (** copy_h2d, copy_d2h, copy_d2d (26-57): all three copy between slices of equal length. *)
  Definition copy (src dst : list F) : res (list F) :=
    if negb (length src =? length dst)%nat then Panic else Ok src.

  (** fill (79-86). *)
  Definition fill (slice : list F) (value : F) : res (list F) := Ok (map (fun _ => value) slice).

  (** inner_product (205-236); [inner_product_unchecked] zips and sums (field/src/util.rs 27-36). *)
  Definition inner_product (a_in : list F) (level : nat) (b_in : list F) : res F :=
    if (top <? level)%nat || negb (length a_in * 2 ^ (top - level) =? length b_in)%nat then Err
    else if negb (supported level) then Err
    else Ok (fsum (map (fun p => fst p * snd p) (combine b_in (flat_map (iter_bases level) a_in)))).

  (** compute_left_fold (574-621).  The three length checks come before the loop. *)
  Definition compute_left_fold (level : nat) (evals_as_b128 : list F) (log_evals_size : nat) (query out : list F) : res (list F) :=
    let evals := flat_map (iter_bases level) evals_as_b128 in
    try log_query_size <- ilog2 (length query);
    let num_cols := (2 ^ log_query_size)%nat in
    try log_rows <- usub log_evals_size log_query_size;
    let num_rows := (2 ^ log_rows)%nat in
    if negb (length evals =? num_cols * num_rows)%nat then Err
    else if negb (length query =? num_cols)%nat then Err
    else if negb (length out =? num_rows)%nat then Err
    else rmap (fun i =>
      fold_left (fun acc j => try acc <- acc; try q <- of_opt (nth_error query j); try e <- of_opt (nth_error evals (j * num_rows + i)%nat); Ok (acc + q * e))
        (seq 0 num_cols) (Ok 0)) (seq 0 num_rows).

  (** compute_right_fold (628-675). *)
  Definition compute_right_fold (level : nat) (evals_as_b128 : list F) (log_evals_size : nat) (query out : list F) : res (list F) :=
    let evals := flat_map (iter_bases level) evals_as_b128 in
    try log_query_size <- ilog2 (length query);
    let num_rows := (2 ^ log_query_size)%nat in
    try log_cols <- usub log_evals_size log_query_size;
    let num_cols := (2 ^ log_cols)%nat in
    if negb (length evals =? num_cols * num_rows)%nat then Err
    else if negb (length query =? num_rows)%nat then Err
    else if negb (length out =? num_cols)%nat then Err
    else rmap (fun i =>
      fold_left (fun acc j => try acc <- acc; try q <- of_opt (nth_error query j); try e <- of_opt (nth_error evals (i * num_rows + j)%nat); Ok (acc + q * e))
        (seq 0 num_rows) (Ok 0)) (seq 0 num_cols).

  (** fold_left (238-258) and fold_right (260-280). *)
  Definition fold_with (f : nat -> list F -> nat -> list F -> list F -> res (list F)) (mat : list F) (level : nat) (vec out : list F) : res (list F) :=
    if (top <? level)%nat then Err
    else
      try l <- ilog2 (length mat);
      let log_evals_size := (l + top - level)%nat in
      if negb (supported level) then Err else f level mat log_evals_size vec out.
  Definition fold_left_op := fold_with compute_left_fold.
  Definition fold_right_op := fold_with compute_right_fold.

  (** One coordinate of tensor_expand (292-300): the two halves of the first 2^(m+1) entries. *)
  Definition tensor_expand_step (m : nat) (data : list F) (r : F) : res (list F) :=
    if (length data <? 2 ^ m)%nat then Panic
    else
      let lhs := firstn (2 ^ m) data in
      let rest := skipn (2 ^ m) data in
      if (length rest <? 2 ^ m)%nat then Panic
      else
        let rhs := firstn (2 ^ m) rest in
        Ok (map (fun x => x - x * r) lhs ++ map (fun p => snd p + fst p * r) (combine lhs rhs) ++ skipn (2 ^ m) rest).
  Fixpoint tensor_expand_loop (m : nat) (coordinates data : list F) : res (list F) :=
    match coordinates with
    | [] => Ok data
    | r :: rest => try data <- tensor_expand_step m data r; tensor_expand_loop (S m) rest data
    end.
  (** tensor_expand (282-302). *)
  Definition tensor_expand (log_n : nat) (coordinates data : list F) : res (list F) :=
    if negb (length data =? 2 ^ (log_n + length coordinates))%nat then Err
    else tensor_expand_loop log_n coordinates data.

  (** eq_ind_partial_eval (compute/src/ops.rs 26-50): [buffer] is the slice handed out by the allocator, with whatever
      it held before; the first element is set to 1 and the whole slice expanded in place. *)
  Definition hal_eq_ind_partial_eval (point buffer : list F) : res (list F) :=
    match buffer with
    | [] => Panic
    | _ :: tail => tensor_expand 0 point (1 :: tail)
    end.

  (** extrapolate_line (393-408). *)
  Definition extrapolate_line (evals_0 evals_1 : list F) (z : F) : res (list F) :=
    if negb (length evals_0 =? length evals_1)%nat then Err
    else Ok (map (fun p => fst p + (snd p - fst p) * z) (combine evals_0 evals_1)).

  (** compute_composite (410-435) on a batch of [rows] of length [row_len] (memory.rs 29-67; the constructor
      asserts the lengths).  [evaluate] is ArithCircuit::evaluate; its failure is an [expect]. *)
  Definition row_at (rows : list (list F)) (i : nat) : res (list F) := rmap (fun row => of_opt (nth_error row i)) rows.
  Definition compute_composite (rows : list (list F)) (row_len : nat) (output : list F) (composition : circuit F) : res (list F) :=
    if negb (row_len =? length output)%nat then Err
    else if negb (n_vars composition =? length rows)%nat then Err
    else rmap (fun i => try query <- row_at rows i; of_opt (evaluate composition query)) (seq 0 (length output)).

  (** sum_composition_evals (497-514). *)
  Definition sum_composition_evals (rows : list (list F)) (row_len : nat) (composition : circuit F) (batch_coeff accumulator : F) : res F :=
    try vs <- rmap (fun i => try row <- row_at rows i; of_opt (evaluate composition row)) (seq 0 row_len);
    Ok (accumulator + fsum vs * batch_coeff).

  (** add (516-533) and add_assign (535-550). *)
  Definition kernel_add (log_len : nat) (src1 src2 dst : list F) : res (list F) :=
    if negb (length src1 =? 2 ^ log_len)%nat || negb (length src2 =? 2 ^ log_len)%nat || negb (length dst =? 2 ^ log_len)%nat then Panic
    else Ok (map (fun p => fst p + snd p) (combine src1 src2)).
  Definition kernel_add_assign (log_len : nat) (src dst : list F) : res (list F) :=
    if negb (length src =? 2 ^ log_len)%nat || negb (length dst =? 2 ^ log_len)%nat then Panic
    else Ok (map (fun p => fst p + snd p) (combine dst src)).

  (** One round of pairwise_product_reduce (476-481). *)
  Definition reduce_round (source : list F) (n : nat) : res (list F) :=
    rmap (fun idx => try a <- of_opt (nth_error source (idx * 2)); try b <- of_opt (nth_error source (idx * 2 + 1)); Ok (a * b)) (seq 0 n).
  Fixpoint reduce_rounds (source : list F) (outs : list (list F)) : res (list (list F)) :=
    match outs with
    | [] => Ok []
    | out :: rest => try out' <- reduce_round source (length out); try rest' <- reduce_rounds out' rest; Ok (out' :: rest')
    end.
  (** pairwise_product_reduce (437-484). *)
  Definition pairwise_product_reduce (input : list F) (round_outputs : list (list F)) : res (list (list F)) :=
    match strict_log (length input) with
    | None => Err
    | Some O => Err
    | Some log_num_inputs =>
      if negb (length round_outputs =? log_num_inputs)%nat then Err
      else if forallb (fun p => (length (snd p) =? 2 ^ (log_num_inputs - fst p - 1))%nat) (combine (seq 0 (length round_outputs)) round_outputs)
      then reduce_rounds input round_outputs
      else Err
    end.

  (** ** Kernel launches *)

  (** KernelMemMap (layer.rs 586-612). *)
  Inductive mem_map : Type :=
  | Chunked (data : list F) (log_min_chunk_size : nat)
  | ChunkedMut (data : list F) (log_min_chunk_size : nat)
  | Local (log_size : nat).

  (** The end of the range of one mapping (layer.rs 620-642, with ALIGNMENT 1; the start is always 0). *)
  Definition range_end (m : mem_map) : res nat :=
    match m with
    | Chunked data lm | ChunkedMut data lm =>
      try log_data_size <- checked_log (length data);
      Ok (log_data_size - Nat.min lm log_data_size)%nat
    | Local log_size => Ok log_size
    end.
  (** log_chunks_range (layer.rs 617-644) followed by [expect] and [.end] (cpu/layer.rs 139-143). *)
  Definition launch_log_chunks (maps : list mem_map) : res nat :=
    try ends <- rmap range_end maps;
    match ends with [] => Panic | e :: es => Ok (fold_left Nat.min es e) end.

  (** The device state of a launch: the contents of every mapped buffer, and of the shared local
      scratch memory, one list per mapping.  Local buffers are disjoint slices of one vector handed out by a bump
      allocator (C60); they are kept as separate lists. *)
  Definition initial (log_chunks : nat) (m : mem_map) : list F :=
    match m with
    | Chunked data _ | ChunkedMut data _ => data
    | Local log_size => repeat 0 (2 ^ (log_size - log_chunks))
    end.
  (** map_kernel_mem (93-127): the buffer of kernel [i]. *)
  Definition kernel_buffer (log_chunks i : nat) (m : mem_map) (data : list F) : list F :=
    match m with
    | Chunked _ _ | ChunkedMut _ _ => firstn (length data / 2 ^ log_chunks) (skipn (i * (length data / 2 ^ log_chunks)) data)
    | Local _ => data
    end.
  (** The effect of a kernel on that buffer: chunks of a mutable slice and local memory are written in place. *)
  Definition write_back (log_chunks i : nat) (m : mem_map) (data new : list F) : list F :=
    match m with
    | Chunked _ _ => data
    | ChunkedMut _ _ => firstn (i * (length data / 2 ^ log_chunks)) data ++ new ++ skipn ((i + 1) * (length data / 2 ^ log_chunks)) data
    | Local _ => new
    end.

  Fixpoint map3 {A B C D} (f : A -> B -> C -> D) (l : list A) (l' : list B) (l'' : list C) : list D :=
    match l, l', l'' with
    | a :: l, b :: l', c :: l'' => f a b c :: map3 f l l' l''
    | _, _, _ => []
    end.
  Definition map2 {A B C} (f : A -> B -> C) (l : list A) (l' : list B) : list C := map (fun p => f (fst p) (snd p)) (combine l l').

  Section Launch.
    Context {R : Type}.
    (** A kernel closure: it gets log_chunks and its buffers, and leaves new contents of the buffers and a result. *)
    Variable kernel : nat -> list (list F) -> list (list F) * res R.

    (** process_kernels_chunks (129-157): kernels run one after another; the local buffer is allocated
        and zeroed once, before the first. *)
    Fixpoint run_kernels (log_chunks : nat) (maps : list mem_map) (indices : list nat) (st : list (list F)) : list (list F) * list (res R) :=
      match indices with
      | [] => (st, [])
      | i :: rest =>
        let (bufs, r) := kernel log_chunks (map2 (kernel_buffer log_chunks i) maps st) in
        let (st', rs) := run_kernels log_chunks maps rest (map3 (write_back log_chunks i) maps st bufs) in
        (st', r :: rs)
      end.
    Definition process_kernels (maps : list mem_map) : res (list (list F) * list (res R)) :=
      try log_chunks <- launch_log_chunks maps;
      Ok (run_kernels log_chunks maps (seq 0 (2 ^ log_chunks)) (map (initial log_chunks) maps)).
  End Launch.

  (** The closure given to [reduce] in accumulate_kernels (177-186).  A panic of a kernel unwinds through everything. *)
  Fixpoint add_extend (out1 out2 : list F) : list F :=
    match out1, out2 with
    | x :: out1', y :: out2' => (x + y) :: add_extend out1' out2'
    | [], _ => out2
    | _, [] => out1
    end.
  Definition accumulate (out1 out2 : res (list F)) : res (list F) :=
    match out1, out2 with
    | Panic, _ | _, Panic => Panic
    | Err, _ | _, Err => Err
    | Ok o1, Ok o2 => Ok (add_extend o1 o2)
    end.
  (** accumulate_kernels (167-189): the final buffer contents and the result. *)
  Definition accumulate_kernels (kernel : nat -> list (list F) -> list (list F) * res (list F)) (maps : list mem_map) : res (list (list F) * res (list F)) :=
    try (st, rs) <- process_kernels kernel maps;
    match rs with [] => Panic | r :: rs => Ok (st, fold_left accumulate rs r) end.

  (** map_kernels (191-203): every kernel result is dropped; a panic still unwinds. *)
  Definition map_kernels (kernel : nat -> list (list F) -> list (list F) * res unit) (maps : list mem_map) : res (list (list F) * res unit) :=
    try (st, rs) <- process_kernels kernel maps;
    Ok (st, if existsb (fun r => match r with Panic => true | _ => false end) rs then Panic else Ok tt).
End Layer.
