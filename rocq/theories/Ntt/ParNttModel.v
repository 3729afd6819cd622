(** Model of crates/ntt/src/multithreaded.rs (and of the index arithmetic of
    crates/utils/src/strided_array.rs that it uses).

    The two parallel loops are run under an arbitrary schedule.  The column phase is one job per
    vertical stride, each job a list of butterflies; a schedule is an interleaving of these lists.
    The row phase is one job per chunk; each job owns its chunk of the buffer, so it is a single
    step, and a schedule is an order of the chunks.  A butterfly is one step: it reads and writes
    two entries of its own stride. *)
Require Import Coq.Arith.Arith Coq.Lists.List Coq.Bool.Bool Coq.Sorting.Permutation.
From Verif Require Import Base.Fld Base.Lists Base.Sums Base.Par Ntt.TwiddleModel Ntt.NttModel.
Import ListNotations.

(** Lines 144-168 and 207-208: the layout chosen from the shape and the thread limit.  [None] is the
    underflow of [log_x + log_y + log_z - min_log_width_scalars] (line 151). *)
Record layout := mkLayout { log_height : nat; log_width : nat; par_rounds : nat; log_stride_len : nat; log_row_z : nat; row_log_y : nat }.

Definition mt_layout (lw lmt : nat) (sh : shape) : option layout :=
  let min_log_width_scalars := Nat.max (lw + 1) (log_x sh) in
  let tot := log_x sh + log_y sh + log_z sh in
  if underflows tot min_log_width_scalars then None else
  let h := Nat.min (tot - min_log_width_scalars) lmt in
  if underflows tot (lw + h) then None else
  let w := tot - (lw + h) in
  let par := h - log_z sh in
  let log_strides := Nat.min lmt w in
  let row_z := log_z sh - h in
  if underflows (w + lw) (log_x sh + row_z) then None else
  Some (mkLayout h w par (w - log_strides) row_z (w + lw - log_x sh - row_z)).

(** One butterfly of the column phase: stride [st], round [i], and the loop variables [j k l m]. *)
Record col_op := mkOp { op_st : nat; op_i : nat; op_j : nat; op_k : nat; op_l : nat; op_m : nat }.

(** Lines 176-204: the work of one stride, for the given rounds, in program order. *)
Definition col_round (L : layout) (sh : shape) (st i : nat) : list col_op :=
  map (fun '(((j, k), l), m) => mkOp st i j k l m)
    (list_prod (list_prod (list_prod (seq 0 (2 ^ log_z sh)) (seq 0 (2 ^ (par_rounds L - 1 - i)))) (seq 0 (2 ^ i)))
               (seq 0 (2 ^ log_stride_len L))).

Definition col_job (L : layout) (sh : shape) (rounds : list nat) (st : nat) : list col_op :=
  flat_map (col_round L sh st) rounds.

(** strided_array.rs 100-125: [step_by(2^log_stride_len)] over [0..2^log_width]. *)
Definition strides (L : layout) : list nat := seq 0 (2 ^ (log_width L - log_stride_len L)).

(** Lines 176 ([rev]) and 325 *)
Definition fwd_par_rounds (L : layout) (skip : nat) : list nat := rev (seq 0 (par_rounds L - skip)).
Definition inv_par_rounds (L : layout) (skip : nat) : list nat := seq 0 (par_rounds L - skip).

(** The schedules allowed: an interleaving of the strides' butterflies and an order of the chunks. *)
Definition col_schedule (L : layout) (sh : shape) (rounds : list nat) (tr : list col_op) : Prop :=
  shuffle (map (col_job L sh rounds) (strides L)) tr.
Definition row_schedule (L : layout) (order : list nat) : Prop := Permutation order (seq 0 (2 ^ log_height L)).

Section Model.
  Variable F : field.
  Notation pack := (list F).

  (** Lines 177-203 (forward) and 326-351 (inverse); [stride[(i, m)]] is entry
      [i * data_width + cols.start + m] (strided_array.rs 49, 61) *)
  Definition col_step (bf : pack -> pack -> pack -> option (pack * pack)) (lw : nat) (L : layout)
      (s_evals : list (twiddle F)) (coset : nat) (data : list pack) (o : col_op) : option (list pack) :=
    do t <- nth_error s_evals (op_i o);
    let coset_offset := Nat.shiftl coset (par_rounds L - 1 - op_i o) in
    do tw <- tw_get t (Nat.lor coset_offset (op_k o));
    let idx0 := Nat.lor (Nat.lor (Nat.shiftl (op_j o) (par_rounds L)) (Nat.shiftl (op_k o) (op_i o + 1))) (op_l o) in
    let idx1 := Nat.lor idx0 (Nat.shiftl 1 (op_i o)) in
    let entry r := r * 2 ^ log_width L + op_st o * 2 ^ log_stride_len L + op_m o in
    update2 data (entry idx0) (entry idx1) (bf (pk_broadcast lw tw)).

  Definition chunk (data : list pack) (W c : nat) : list pack := firstn W (skipn (c * W) data).
  Definition splice (data : list pack) (W c : nat) (r : list pack) : list pack :=
    firstn (c * W) data ++ r ++ skipn (S c * W) data.

  (** Lines 210-224 and 295-309: chunk [c] of the buffer is the row [inner_coset] of its large chunk. *)
  Definition row_step (tf : list pack -> shape -> nat -> nat -> nat -> res (list pack)) (L : layout) (sh : shape)
      (coset cb skip : nat) (data : list pack) (c : nat) : res (list pack) :=
    let W := 2 ^ log_width L in
    let inner_coset := c mod 2 ^ par_rounds L in
    try r <- tf (chunk data W c) (mkShape (log_x sh) (row_log_y L) (log_row_z L))
                (Nat.lor (Nat.shiftl coset (par_rounds L)) inner_coset) (cb + par_rounds L) (skip - par_rounds L);
    Ok (splice data W c r).

  Fixpoint rfold {A B} (f : A -> B -> res A) (l : list B) (a : A) : res A :=
    match l with
    | [] => Ok a
    | b :: l' => try a' <- f a b; rfold f l' a'
    end.

  Section Run.
  Variables (lw lmt log_domain_size : nat) (s_evals : list (twiddle F)) (sh : shape) (coset cb skip : nat).

  Definition cols (bf : pack -> pack -> pack -> option (pack * pack)) (L : layout) (tr : list col_op) (data : list pack)
    : res (list pack) :=
    if (length data =? 2 ^ log_width L * 2 ^ log_height L)%nat then
      if underflows log_domain_size (par_rounds L + cb) then Panic else
      of_opt (ofold (col_step bf lw L (skipn (log_domain_size - (par_rounds L + cb)) s_evals) coset) tr data)
    else Panic.

  (** Lines 100-227, under the schedule [(tr, order)] *)
  Definition mt_forward (tr : list col_op) (order : list nat) (data : list pack) : res (list pack) :=
    try _ <- check_params lw log_domain_size data sh coset cb skip;
    match data with
    | [] => Ok data
    | [_] => if (lw =? 0)%nat then Ok data
             else forward_transform lw log_domain_size s_evals data sh coset cb skip
    | _ =>
      match mt_layout lw lmt sh with
      | None => Panic
      | Some L =>
        try d1 <- cols butterfly L tr data;
        rfold (row_step (fun d sh' c' cb' sk' => forward_transform lw log_domain_size s_evals d sh' c' cb' sk')
                 L sh coset cb skip) order d1
      end
    end.

  (** Lines 230-356 *)
  Definition mt_inverse (tr : list col_op) (order : list nat) (data : list pack) : res (list pack) :=
    try _ <- check_params lw log_domain_size data sh coset cb skip;
    match data with
    | [] => Ok data
    | [_] => if (lw =? 0)%nat then Ok data
             else inverse_transform lw log_domain_size s_evals data sh coset cb skip
    | _ =>
      match mt_layout lw lmt sh with
      | None => Panic
      | Some L =>
        try d1 <- rfold (row_step (fun d sh' c' cb' sk' => inverse_transform lw log_domain_size s_evals d sh' c' cb' sk')
                 L sh coset cb skip) order data;
        cols inv_butterfly L tr d1
      end
    end.
  End Run.
End Model.

Arguments col_step {_} _ _ _ _ _ _ _.
Arguments chunk {_} _ _ _.
Arguments splice {_} _ _ _ _.
Arguments row_step {_} _ _ _ _ _ _ _ _.
Arguments cols {_} _ _ _ _ _ _ _ _ _.
Arguments mt_forward {_} _ _ _ _ _ _ _ _ _ _ _.
Arguments mt_inverse {_} _ _ _ _ _ _ _ _ _ _ _.
