(** Model of the Fiat-Shamir challenger over a hash function (crates/core/src/fiat_shamir/hasher_challenger.rs)
    and of the block buffer of crates/hash/src/serialization.rs.

    A `Digest` object is represented by the bytes it has absorbed since it was last reset; `update`
    appends to them and `finalize` applies the hash function, which is arbitrary.  The provided methods
    `put_slice` and `copy_to_slice` of the `bytes` crate are the loops over chunks below (the crate is a
    dependency, its source is not in /repo; `get_u32_le` and the like are a `copy_to_slice` of that many
    bytes).  Loops get fuel; [None] is running out of it. *)
Require Import Coq.NArith.NArith Coq.Arith.Arith Coq.Lists.List Coq.Bool.Bool Lia.
Require Import Verif.Base.Sums Verif.Base.Lists Verif.Transcript.SerModel.
Import ListNotations.
Local Close Scope N_scope. Local Open Scope nat_scope.

(** [&mut buffer\[i..i + s.len()\]].copy_from_slice(s) *)
Definition write_at (b : list byte) (i : nat) (s : list byte) : list byte :=
  firstn i b ++ s ++ skipn (i + length s) b.

Section Challenger.
  Variable hash : list byte -> list byte.
  Variable osz : nat.      (* <H as Digest>::output_size() *)
  Variable bsz : nat.      (* <H as BlockSizeUser>::block_size() *)

  (** hasher_challenger.rs 13-27: both structs have a position, a buffer and a hasher. *)
  Record blockbuf := BlockBuf { bb_index : nat; bb_buffer : list byte; bb_hasher : list byte }.

  (** hasher_challenger.rs 31-35 *)
  Inductive chal : Type :=
  | Observer (o : blockbuf)
  | Sampler (s : blockbuf).

  (** HasherObserver::flush (139-142) and HashBuffer::flush (crates/hash/src/serialization.rs 33-36) *)
  Definition flush (o : blockbuf) : blockbuf :=
    BlockBuf 0 (bb_buffer o) (bb_hasher o ++ firstn (bb_index o) (bb_buffer o)).

  (** HasherObserver::advance_mut (183-192) and HashBuffer::advance_mut (44-53) *)
  Fixpoint advance_mut (fuel : nat) (o : blockbuf) (cnt : nat) : option blockbuf :=
    if cnt =? 0 then Some o else
    match fuel with
    | O => None
    | S fuel =>
      let remaining := Nat.min (bsz - bb_index o) cnt in
      let o1 := BlockBuf (bb_index o + remaining) (bb_buffer o) (bb_hasher o) in
      let o2 := if bb_index o1 =? bsz then flush o1 else o1 in
      advance_mut fuel o2 (cnt - remaining)
    end.

  (** BufMut::put_slice over chunk_mut (194-197; serialization.rs 55-58) and advance_mut. *)
  Fixpoint put_slice (fuel : nat) (o : blockbuf) (src : list byte) : option blockbuf :=
    match src with
    | [] => Some o
    | _ =>
      match fuel with
      | O => None
      | S fuel =>
        let cnt := Nat.min (length src) (bsz - bb_index o) in
        let o1 := BlockBuf (bb_index o) (write_at (bb_buffer o) (bb_index o) (firstn cnt src)) (bb_hasher o) in
        do o2 <- advance_mut cnt o1 cnt;
        put_slice fuel o2 (skipn cnt src)
      end
    end.

  (** HasherSampler::fill_buffer (109-117) *)
  Definition fill_buffer (s : blockbuf) : blockbuf :=
    let digest := hash (bb_hasher s) in BlockBuf 0 digest digest.

  (** HasherSampler::advance (156-171), after its first test *)
  Fixpoint advance_loop (fuel : nat) (s : blockbuf) (cnt : nat) : option blockbuf :=
    if cnt =? 0 then Some s else
    match fuel with
    | O => None
    | S fuel =>
      let remaining := Nat.min (osz - bb_index s) cnt in
      if remaining =? 0 then advance_loop fuel (fill_buffer s) cnt
      else advance_loop fuel (BlockBuf (bb_index s + remaining) (bb_buffer s) (bb_hasher s)) (cnt - remaining)
    end.
  Definition advance (s : blockbuf) (cnt : nat) : option blockbuf :=
    advance_loop (2 * cnt) (if bb_index s =? osz then fill_buffer s else s) cnt.

  (** Buf::copy_to_slice of n bytes over chunk (152-154) and advance. *)
  Fixpoint copy_to_slice (fuel : nat) (s : blockbuf) (n : nat) : option (list byte * blockbuf) :=
    if n =? 0 then Some ([], s) else
    match fuel with
    | O => None
    | S fuel =>
      let src := skipn (bb_index s) (bb_buffer s) in
      let cnt := Nat.min (length src) n in
      do s1 <- advance s cnt;
      do (out, s2) <- copy_to_slice fuel s1 (n - cnt);
      Some (firstn cnt src ++ out, s2)
    end.

  (** HasherSampler::into_observer (94-102): the position is hashed as a u64. *)
  Definition into_observer (s : blockbuf) : blockbuf :=
    BlockBuf 0 (repeat 0%N bsz) (bb_hasher s ++ le_bytes 8 (N.of_nat (bb_index s))).
  (** HasherObserver::into_sampler (124-131) *)
  Definition into_sampler (o : blockbuf) : blockbuf :=
    let o := flush o in BlockBuf osz (repeat 0%N osz) (bb_hasher o).

  (** Challenger::observer and ::sampler (64-88) *)
  Definition observer (c : chal) : blockbuf :=
    match c with Observer o => o | Sampler s => into_observer s end.
  Definition sampler (c : chal) : blockbuf :=
    match c with Sampler s => s | Observer o => into_sampler o end.

  (** HasherChallenger::default (41-60) *)
  Definition challenger_default : chal :=
    let d := hash [] in Sampler (BlockBuf 0 d d).

  (** [challenger.observer().put_slice(bytes)] *)
  Definition observe (c : chal) (bytes : list byte) : option chal :=
    do o <- put_slice (length bytes) (observer c) bytes; Some (Observer o).
  (** [challenger.sampler().copy_to_slice(&mut \[0; n\])] *)
  Definition sample (c : chal) (n : nat) : option (list byte * chal) :=
    do (out, s) <- copy_to_slice (2 * n) (sampler c) n; Some (out, Sampler s).

  (** A sequence of uses of the challenger: the outputs of the sampling events, in order. *)
  Inductive event := EObserve (bytes : list byte) | ESample (n : nat).
  Fixpoint run (c : chal) (evs : list event) : option (list (list byte) * chal) :=
    match evs with
    | [] => Some ([], c)
    | EObserve bs :: r => do c1 <- observe c bs; run c1 r
    | ESample n :: r =>
      do (out, c1) <- sample c n;
      do (outs, c2) <- run c1 r;
      Some (out :: outs, c2)
    end.

  (** hash_serialize (crates/hash/src/serialization.rs 67-83): items are put one by one into a
      HashBuffer, which is flushed when dropped. *)
  Fixpoint put_items (o : blockbuf) (items : list (list byte)) : option blockbuf :=
    match items with
    | [] => Some o
    | i :: r => do o1 <- put_slice (length i) o i; put_items o1 r
    end.
  Definition hash_serialize (items : list (list byte)) : option (list byte) :=
    do o <- put_items (BlockBuf 0 (repeat 0%N bsz) []) items;
    Some (hash (bb_hasher (flush o))).
End Challenger.
