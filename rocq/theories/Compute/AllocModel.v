(** Model of the bump allocator.

    /repo/crates/compute/src/alloc.rs, with the splitting functions it uses from
    /repo/crates/compute/src/cpu/memory.rs and /repo/crates/fast_compute/src/memory.rs

    A mutable memory slice is the interval of element positions it covers.  [A] is the alignment of
    the memory (1 for `CpuMemory`, the packing width for `PackedMemory`).  The buffer is behind a
    mutex held for the whole of [alloc], so a concurrent execution is a sequence of atomic calls;
    a panic while the lock is held leaves the mutex poisoned ([None]) and later calls panic too. *)
Require Import Coq.Arith.Arith Coq.Lists.List Coq.Bool.Bool.
Require Import Verif.Math.MleModel.
Import ListNotations.

(** The positions [iv_lo, iv_lo + iv_len). *)
Record iv := mkIv { iv_lo : nat; iv_len : nat }.

(** What a call returns. *)
Inductive aresult := AOk (s : iv) | AOutOfMemory | APanic.

Section Alloc.
Variable A : nat.

(** [split_at_mut] (cpu/memory.rs 58-63, fast_compute/memory.rs 65-81): panics when the position is
    out of range or not a multiple of the alignment. *)
Definition split_at_mut (b : iv) (mid : nat) : option (iv * iv) :=
  if negb (mid mod A =? 0) || (iv_len b <? mid) then None
  else Some (mkIv (iv_lo b) mid, mkIv (iv_lo b + mid) (iv_len b - mid)).

(** [split_half_mut] (memory.rs 187-197, fast_compute/memory.rs 164-222): the length must be a power
    of two greater than one. *)
Definition split_half_mut (b : iv) : option (iv * iv) :=
  if is_pow2 (iv_len b) && (1 <? iv_len b)
  then let mid := iv_len b / 2 in
       Some (mkIv (iv_lo b) mid, mkIv (iv_lo b + mid) (iv_len b - mid))
  else None.

(** Lines 83-85: keep the first half, [k] times. *)
Fixpoint halve (k : nat) (b : iv) : option iv :=
  match k with
  | O => Some b
  | S k' => match split_half_mut b with Some (l, _) => halve k' l | None => None end
  end.

(** [alloc], lines 68-91: the new buffer ([None]: poisoned) and the result.  The `checked_log_2`s of
    line 83 are [Nat.log2], guarded by the assertion of line 82 (the alignment is a power of two). *)
Definition alloc (buffer : option iv) (n : nat) : option iv * aresult :=
  match buffer with
  | None => (None, APanic)
  | Some b =>
    if iv_len b <? n then (Some b, AOutOfMemory)
    else match split_at_mut b (Nat.max n A) with
         | None => (None, APanic)
         | Some (lhs, rhs) =>
           if n <? A then
             if is_pow2 n then
               match halve (Nat.log2 A - Nat.log2 n) lhs with
               | Some l => (Some rhs, AOk l)
               | None => (None, APanic)
               end
             else (None, APanic)
           else (Some rhs, AOk lhs)
         end
  end.

(** [capacity], lines 93-100. *)
Definition capacity (buffer : option iv) : option nat := option_map iv_len buffer.

(** [new], lines 40-44. *)
Definition bump_new (b : iv) : option iv := Some b.

(** A program over an allocator and its nested scopes: allocations from the innermost allocator,
    opening a scope with [subscope_allocator] (lines 102-104: a new allocator over the remaining
    buffer, borrowing the outer one), and leaving it. *)
Inductive aop := Alloc (n : nat) | Enter | Leave.
(** One allocator in scope: its buffer, and the slices handed out by it that are still live. *)
Notation frame := (option iv * list iv)%type.
(** The allocators in scope, innermost first. *)
Definition step (st : list frame) (o : aop) : list frame * aresult :=
  match st, o with
  | [], _ => ([], APanic)
  | (b, live) :: rest, Alloc n =>
    match alloc b n with
    | (b', AOk s) => ((b', s :: live) :: rest, AOk s)
    | (b', r) => ((b', live) :: rest, r)
    end
  | (b, live) :: rest, Enter => ((b, []) :: (b, live) :: rest, AOutOfMemory)
  | (b, live) :: rest, Leave =>
    match rest with
    | [] => (st, AOutOfMemory)
    | _ => (rest, AOutOfMemory)
    end
  end.
Definition run (st : list frame) (h : list aop) : list frame :=
  fold_left (fun st o => fst (step st o)) h st.
(** All slices currently live. *)
Definition live_slices (st : list frame) : list iv := concat (map snd st).
End Alloc.
