(** Model of crates/core/src/reed_solomon/reed_solomon.rs.  The NTT is the single-threaded one (the
    multithreaded one returns the same results, C28). *)
Require Import Coq.Arith.Arith Coq.Lists.List Coq.Bool.Bool.
From Verif Require Import Base.Fld Base.Lists Base.Sums Ntt.TwiddleModel Ntt.NttModel.
Import ListNotations.

Section Model.
  Variable F : field.
  Local Open Scope fld_scope.
  Notation pack := (list F).

  (** lines 25-32 *)
  Record rs_code := mkRs { rs_subspace : list F; rs_log_dim : nat; rs_log_inv_rate : nat }.

  Definition rs_log_len (c : rs_code) : nat := rs_log_dim c + rs_log_inv_rate c.
  Definition rs_dim (c : rs_code) : nat := 2 ^ rs_log_dim c.

  (** lines 51-64 *)
  Definition with_subspace (subspace : list F) (log_dim log_inv_rate : nat) : res rs_code :=
    if (length subspace =? log_dim + log_inv_rate)%nat then Ok (mkRs subspace log_dim log_inv_rate) else Err.

  (** lines 39-49 *)
  Definition with_ntt_subspace (ts : list (twiddle F)) (log_dim log_inv_rate : nat) : res rs_code :=
    if (length ts <? log_dim + log_inv_rate)%nat then Err
    else try s <- of_opt (ntt_subspace ts (log_dim + log_inv_rate)); with_subspace s log_dim log_inv_rate.

  Fixpoint list_eqb (a b : list F) : bool :=
    match a, b with
    | [], [] => true
    | x :: a', y :: b' => feqb x y && list_eqb a' b'
    | _, _ => false
    end.

  (** [P::from_scalars(scalars.take(n).cycle())], lines 134-138 *)
  Definition cycle_fill (lw n : nat) (p : pack) : pack := map (fun s => nth (s mod n) p 0) (seq 0 (2 ^ lw)).

  (** lines 142-148: [chunks_mut(cs)], every chunk overwritten by the first one; [copy_from_slice]
      panics when the lengths differ *)
  Definition repeat_chunk (cs : nat) (code : list pack) : option (list pack) :=
    if (length code mod cs =? 0)%nat then Some (concat (repeat (firstn cs code) (length code / cs))) else None.

  (** lines 104-157 *)
  Definition encode_batch_inplace (lw : nat) (ts : list (twiddle F)) (c : rs_code) (code : list pack) (log_batch_size : nat)
    : res (list pack) :=
    try s <- of_opt (ntt_subspace ts (rs_log_len c));
    if negb (list_eqb s (rs_subspace c)) then Err else
    if negb (length code =? 2 ^ (rs_log_len c + log_batch_size - lw))%nat then Err else
    try code1 <-
      (if (rs_dim c + log_batch_size <? lw)%nat then
         of_opt (do p <- nth_error code 0; Some (upd code 0 (cycle_fill lw (2 ^ (rs_log_dim c + log_batch_size)) p)))
       else Ok code);
    try code2 <- of_opt (repeat_chunk (2 ^ (rs_log_dim c + log_batch_size - lw)) code1);
    forward_transform lw (length ts) ts code2 (mkShape log_batch_size (rs_log_len c) 0) 0 0 (rs_log_inv_rate c).

  (** lines 172-183: on the base-field scalars the extension elements are part of the batch *)
  Definition encode_ext_batch_inplace (lw : nat) (ts : list (twiddle F)) (c : rs_code) (code : list pack)
      (log_batch_size log_degree : nat) : res (list pack) :=
    encode_batch_inplace lw ts c code (log_batch_size + log_degree).
End Model.

Arguments rs_subspace {_} _.
Arguments rs_log_dim {_} _.
Arguments rs_log_inv_rate {_} _.
Arguments rs_log_len {_} _.
Arguments rs_dim {_} _.
Arguments mkRs {_} _ _ _.
Arguments with_subspace {_} _ _ _.
Arguments with_ntt_subspace {_} _ _ _.
Arguments list_eqb {_} _ _.
Arguments cycle_fill {_} _ _ _.
Arguments repeat_chunk {_} _ _.
Arguments encode_batch_inplace {_} _ _ _ _ _.
Arguments encode_ext_batch_inplace {_} _ _ _ _ _ _.
