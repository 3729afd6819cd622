(** Model of the connected-component labelling.

    /repo/crates/utils/src/graph.rs

    Out-of-range indexing is [None]; so is running out of the recursion fuel of [find], which the
    theorems show does not happen. *)
Require Import Coq.Arith.Arith Coq.Lists.List Coq.Bool.Bool.
Require Import Verif.Base.Lists.
Import ListNotations.

(** [UnionFind], lines 66-70. *)
Record uf := mkUf { uf_parent : list nat; uf_rank : list nat; uf_min : list nat }.

(** [UnionFind::new], lines 73-79. *)
Definition uf_new (n : nat) : uf := mkUf (seq 0 n) (repeat 0 n) (seq 0 n).

(** [find] with path compression, lines 81-86: the new parents and the root. *)
Fixpoint find (fuel : nat) (p : list nat) (x : nat) : option (list nat * nat) :=
  match fuel with
  | O => None
  | S f =>
    do px <- nth_error p x;
    if negb (px =? x) then
      do (p', r) <- find f p px;
      let p'' := upd p' x r in
      do res <- nth_error p'' x;
      Some (p'', res)
    else Some (p, px)
  end.

(** The recursion depth never reaches the number of nodes. *)
Definition uf_find (u : uf) (x : nat) : option (uf * nat) :=
  do (p, r) <- find (length (uf_parent u)) (uf_parent u) x;
  Some (mkUf p (uf_rank u) (uf_min u), r).

(** [union], lines 88-111. *)
Definition union (u : uf) (x y : nat) : option uf :=
  do (u, rx) <- uf_find u x;
  do (u, ry) <- uf_find u y;
  if negb (rx =? ry) then
    do mx <- nth_error (uf_min u) rx;
    do my <- nth_error (uf_min u) ry;
    let min_element := Nat.min mx my in
    do kx <- nth_error (uf_rank u) rx;
    do ky <- nth_error (uf_rank u) ry;
    match Nat.compare kx ky with
    | Lt => Some (mkUf (upd (uf_parent u) rx ry) (uf_rank u) (upd (uf_min u) ry min_element))
    | Gt => Some (mkUf (upd (uf_parent u) ry rx) (uf_rank u) (upd (uf_min u) rx min_element))
    | Eq => Some (mkUf (upd (uf_parent u) ry rx) (upd (uf_rank u) rx (kx + 1)) (upd (uf_min u) rx min_element))
    end
  else Some u.

(** `Iterator::max` / `min` over a non-empty sequence *)
Definition list_max0 (l : list nat) : nat := fold_right Nat.max 0 l.
Fixpoint list_min (x : nat) (l : list nat) : nat :=
  match l with [] => x | y :: t => list_min (Nat.min x y) t end.

(** Lines 42-52: one input set. *)
Definition add_set (u : uf) (ids : list nat) : option uf :=
  match ids with
  | [] | [_] => Some u
  | x :: t =>
    let base := list_min x t in
    ofold (fun u node => if negb (node =? base) then union u base node else Some u) ids u
  end.

(** Lines 56-61: the label of every node ([find] compresses paths along the way). *)
Fixpoint labels (u : uf) (is : list nat) : option (list nat) :=
  match is with
  | [] => Some []
  | i :: t =>
    do (u', root) <- uf_find u i;
    do m <- nth_error (uf_min u') root;
    do r <- labels u' t;
    Some (m :: r)
  end.

(** [connected_components], lines 22-64. *)
Definition connected_components (data : list (list nat)) : option (list nat) :=
  match data with
  | [] => Some []
  | _ =>
    let max_id := list_max0 (concat data) in
    let n := max_id + 1 in
    do u <- ofold add_set data (uf_new n);
    labels u (seq 0 n)
  end.
