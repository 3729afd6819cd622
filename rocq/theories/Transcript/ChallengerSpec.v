(** Specification of the challenger: a sponge that works one byte at a time, with no buffers.

    [absorbed] is what the next block of challenges is the hash of; [unread] is what is left of the
    current block.  Turning from sampling to observing records how much of the block was read. *)
Require Import Coq.NArith.NArith Coq.Arith.Arith Coq.Lists.List Lia.
Require Import Verif.Transcript.SerModel Verif.Transcript.ChallengerModel.
Import ListNotations.
Local Close Scope N_scope. Local Open Scope nat_scope.

Section Spec.
  Variable hash : list byte -> list byte.
  Variable osz : nat.

  Record sponge := Sponge { absorbing : bool; absorbed : list byte; unread : list byte }.

  Definition sponge_init : sponge := Sponge false (hash []) (hash []).

  (** Absorb the bytes of one message. *)
  Definition sponge_observe (s : sponge) (bytes : list byte) : sponge :=
    Sponge true
      ((if absorbing s then absorbed s
        else absorbed s ++ le_bytes 8 (N.of_nat (osz - length (unread s)))) ++ bytes) [].

  (** One byte of output; an exhausted block is replaced by the hash of what was absorbed. *)
  Definition sponge_byte (s : sponge) : byte * sponge :=
    match unread s with
    | x :: u => (x, Sponge false (absorbed s) u)
    | [] => let d := hash (absorbed s) in (hd 0%N d, Sponge false d (tl d))
    end.

  Fixpoint sponge_bytes (n : nat) (s : sponge) : list byte * sponge :=
    match n with
    | O => ([], s)
    | S n' => let (x, s1) := sponge_byte s in let (l, s2) := sponge_bytes n' s1 in (x :: l, s2)
    end.

  Definition sponge_sample (s : sponge) (n : nat) : list byte * sponge :=
    sponge_bytes n (Sponge false (absorbed s) (unread s)).

  Fixpoint sponge_run (s : sponge) (evs : list event) : list (list byte) * sponge :=
    match evs with
    | [] => ([], s)
    | EObserve bs :: r => sponge_run (sponge_observe s bs) r
    | ESample n :: r =>
      let (out, s1) := sponge_sample s n in
      let (outs, s2) := sponge_run s1 r in (out :: outs, s2)
    end.

  (** The strings that get hashed along the way, for stating that a collision occurs among them. *)
  Fixpoint bytes_inputs (n : nat) (s : sponge) : list (list byte) :=
    match n with
    | O => []
    | S n' => match unread s with [] => [absorbed s] | _ => [] end ++ bytes_inputs n' (snd (sponge_byte s))
    end.
  Fixpoint run_inputs (s : sponge) (evs : list event) : list (list byte) :=
    match evs with
    | [] => []
    | EObserve bs :: r => run_inputs (sponge_observe s bs) r
    | ESample n :: r =>
      bytes_inputs n (Sponge false (absorbed s) (unread s)) ++ run_inputs (snd (sponge_sample s n)) r
    end.
  (** The empty string is hashed when the challenger is created. *)
  Definition hashed_inputs (evs : list event) : list (list byte) := [] :: run_inputs sponge_init evs.

  (** A collision of the hash function between a string hashed in one run and one hashed in another. *)
  Definition collision_between (l1 l2 : list (list byte)) : Prop :=
    exists x y, In x l1 /\ In y l2 /\ x <> y /\ hash x = hash y.
End Spec.

(** A history in which observations and samplings alternate and every sampling reads something:
    every history can be brought to this form by merging neighbours. *)
Fixpoint alternating (prev : option bool) (evs : list event) : Prop :=
  match evs with
  | [] => True
  | EObserve _ :: r => prev <> Some true /\ alternating (Some true) r
  | ESample n :: r => prev <> Some false /\ 0 < n /\ alternating (Some false) r
  end.
