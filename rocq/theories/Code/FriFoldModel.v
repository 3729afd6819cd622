(** Model of crates/ntt/src/fri.rs.

    The NTT is given by its twiddle tables; subfield scalars are represented by their images in the
    extension field; a slice of packed elements of width [2^lw] is the flat list of its scalars (as in
    Math/MleModel.v).  [None] is an index out of range, an arithmetic underflow or a failed assertion.
    Debug assertions are not checked. *)
Require Import Coq.Arith.Arith Coq.Lists.List Coq.Bool.Bool.
From Verif Require Import Base.Fld Base.Lists Base.Sums Math.UnivariateModel Math.MleModel Ntt.TwiddleModel Ntt.NttModel.
Import ListNotations.

Section Model.
  Variable F : field.
  Local Open Scope fld_scope.

  (** lines 92-105 *)
  Definition fold_pair (ts : list (twiddle F)) (round index : nat) (u v r : F) : option F :=
    do t <- ntt_subspace_eval ts round index;
    let v' := v + u in
    let u' := u + v' * t in
    Some (extrapolate_line u' v' r).

  (** lines 156-167, one iteration of the outer loop *)
  Definition fold_round (ts : list (twiddle F)) (log_len log_size chunk_index : nat) (values : list F) (challenge : F)
    : option (list F) :=
    ofold (fun values off =>
      do a <- nth_error values (Nat.shiftl off 1);
      do b <- nth_error values (Nat.lor (Nat.shiftl off 1) 1);
      do x <- fold_pair ts log_len (Nat.lor (Nat.shiftl chunk_index (log_size - 1)) off) a b challenge;
      Some (upd values off x)) (seq 0 (2 ^ (log_size - 1))) values.

  (** lines 154-171; [log_len -= 1] *)
  Fixpoint fold_rounds (ts : list (twiddle F)) (log_len log_size chunk_index : nat) (values challenges : list F)
    : option (list F) :=
    match challenges with
    | [] => Some values
    | c :: cs =>
        do values' <- fold_round ts log_len log_size chunk_index values c;
        if underflows log_len 1 then None
        else fold_rounds ts (log_len - 1) (log_size - 1) chunk_index values' cs
    end.

  (** lines 135-174 *)
  Definition fold_chunk (ts : list (twiddle F)) (log_len chunk_index : nat) (values challenges : list F) : option F :=
    do values' <- fold_rounds ts log_len (length challenges) chunk_index values challenges;
    nth_error values' 0.

  (** [slice.chunks(n)] with its last, shorter chunk *)
  Fixpoint chunks_fuel {A} (fuel n : nat) (l : list A) : list (list A) :=
    match fuel with
    | O => []
    | S fuel' => match l with [] => [] | _ => firstn n l :: chunks_fuel fuel' n (skipn n l) end
    end.
  Definition chunks {A} (n : nat) (l : list A) : list (list A) := chunks_fuel (length l) n l.

  (** lines 235-242: the products of the packed elements of a chunk with the tensor, summed lane by
      lane, then the sum of the first [2^log_batch_size] lanes *)
  Definition dot_packed (lw log_batch_size : nat) (chunk tensor : list F) : F :=
    let prods := map (fun p => fst p * snd p) (combine chunk tensor) in
    let lanes := map (fun l => sumn (length prods / 2 ^ lw) (fun t => nth (t * 2 ^ lw + l) prods 0)) (seq 0 (2 ^ lw)) in
    fsum (firstn (2 ^ log_batch_size) lanes).

  (** [iter::zip(dst, src)] assigning *)
  Definition zip_assign (dst src : list F) : list F := firstn (length dst) src ++ skipn (length src) dst.

  (** lines 200-249 *)
  Definition fold_interleaved_chunk (lw : nat) (ts : list (twiddle F)) (log_len log_batch_size chunk_index : nat)
      (values tensor fold_challenges scratch : list F) : option F :=
    let n := (2 ^ length fold_challenges)%nat in
    if (length scratch <? n)%nat then None else
    let scratch' := firstn n scratch in
    do buf <-
      (if (log_batch_size =? 0)%nat then Some (zip_assign scratch' values)
       else if underflows log_batch_size lw then None
       else Some (zip_assign scratch'
              (map (fun chunk => dot_packed lw log_batch_size chunk tensor)
                   (chunks (2 ^ (log_batch_size - lw) * 2 ^ lw) values))));
    fold_chunk ts log_len chunk_index buf fold_challenges.

  (** lines 26-68; the parallel loop writes each output once.  The scratch buffer of a thread holds
      values from earlier chunks: [stale i] when chunk [i] is processed. *)
  Definition fold_interleaved_allocated (lw : nat) (ts : list (twiddle F)) (codeword challenges : list F)
      (log_len log_batch_size : nat) (stale : nat -> list F) (out : list F) : option (list F) :=
    if negb (length codeword =? 2 ^ (log_len + log_batch_size - lw) * 2 ^ lw)%nat then None
    else if (length challenges <? log_batch_size)%nat then None
    else if underflows log_len (length challenges - log_batch_size) then None
    else if negb (length out =? 2 ^ (log_len - (length challenges - log_batch_size)))%nat then None
    else
      let fold_challenges := skipn log_batch_size challenges in
      match query_expand lw (firstn log_batch_size challenges) with
      | Ok q =>
        do tensor <- expansion lw q;
        let cs := chunks (2 ^ (length challenges - lw) * 2 ^ lw) codeword in
        do written <- omap (fun '(i, chunk) =>
            fold_interleaved_chunk lw ts log_len log_batch_size i chunk tensor fold_challenges (stale i))
          (firstn (length out) (combine (seq 0 (length cs)) cs));
        Some (zip_assign out written)
      | _ => None
      end.

  (** lines 70-88 *)
  Definition fold_interleaved (lw : nat) (ts : list (twiddle F)) (codeword challenges : list F)
      (log_len log_batch_size : nat) (stale : nat -> list F) : option (list F) :=
    fold_interleaved_allocated lw ts codeword challenges log_len log_batch_size stale
      (repeat 0 (2 ^ (log_len - (length challenges - log_batch_size)))).
End Model.

Arguments fold_pair {_} _ _ _ _ _ _.
Arguments fold_round {_} _ _ _ _ _ _.
Arguments fold_rounds {_} _ _ _ _ _ _.
Arguments fold_chunk {_} _ _ _ _ _.
Arguments dot_packed {_} _ _ _ _.
Arguments zip_assign {_} _ _.
Arguments fold_interleaved_chunk {_} _ _ _ _ _ _ _ _ _.
Arguments fold_interleaved_allocated {_} _ _ _ _ _ _ _ _.
Arguments fold_interleaved {_} _ _ _ _ _ _ _.
