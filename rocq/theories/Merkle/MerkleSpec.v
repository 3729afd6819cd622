(** What a Merkle tree is, independently of its flattened layout (C31, C32). *)
Require Import Coq.NArith.NArith Coq.Arith.Arith Coq.Lists.List Coq.Bool.Bool Coq.Sorting.Permutation.
Require Import Verif.Transcript.SerModel.
Import ListNotations.
Local Close Scope N_scope. Local Open Scope nat_scope.

Notation digest := (list byte).

(** Neighbours in a layer. *)
Fixpoint pairs {A} (l : list A) : list (A * A) :=
  match l with
  | a :: b :: r => (a, b) :: pairs r
  | _ => []
  end.

Section Spec.
  Variable compress : digest -> digest -> digest.

  (** The layer above a layer, the layer [j] levels above, and the root above [2^n] digests. *)
  Definition up (l : list digest) : list digest := map (fun p => compress (fst p) (snd p)) (pairs l).
  Fixpoint level (j : nat) (l : list digest) : list digest :=
    match j with O => l | S j => level j (up l) end.
  Definition merkle_root (n : nat) (l : list digest) : digest := nth 0 (level n l) [].

  (** All inputs of the compression function in the tree above [l]. *)
  Fixpoint tree_pairs (n : nat) (l : list digest) : list (digest * digest) :=
    match n with O => [] | S n => pairs l ++ tree_pairs n (up l) end.

  (** All inputs of the compression function on the way up from a leaf. *)
  Fixpoint path_pairs (index : nat) (d : digest) (path : list digest) : list (digest * digest) :=
    match path with
    | [] => []
    | b :: r =>
      let p := if Nat.even index then (d, b) else (b, d) in
      p :: path_pairs (index / 2) (compress (fst p) (snd p)) r
    end.

  (** Two different inputs, one from each list, with the same output. *)
  Definition node_collision (l1 l2 : list (digest * digest)) : Prop :=
    exists p q, In p l1 /\ In q l2 /\ p <> q /\ compress (fst p) (snd p) = compress (fst q) (snd q).
End Spec.

Definition leaf_collision (hash : list byte -> digest) (x y : list byte) : Prop := x <> y /\ hash x = hash y.

(** The [n] digests of [osz] bytes at the start of a proof. *)
Fixpoint digests_at (osz n : nat) (tape : list byte) : list digest :=
  match n with O => [] | S n => firstn osz tape :: digests_at osz n (skipn osz tape) end.

(** An order for the parallel writes of each layer: layer [i] has 2^(n-i) cells. *)
Definition schedule (n : nat) (sched : nat -> list nat) : Prop :=
  forall i, i <= n -> Permutation (sched i) (seq 0 (2 ^ (n - i))).

(** Batch [i] of a vector. *)
Definition batch {V} (batch_size i : nat) (data : list V) : list V := firstn batch_size (skipn (i * batch_size) data).

(** An encoding of elements with [w] bytes each. *)
Definition fixed_encoding {V} (enc : V -> list byte) (w : nat) : Prop :=
  0 < w /\ (forall v, length (enc v) = w) /\ (forall v v', enc v = enc v' -> v = v').
