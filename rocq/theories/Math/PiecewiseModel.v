(** Model of crates/math/src/piecewise_multilinear.rs. *)
Require Import Coq.Arith.Arith Coq.Lists.List Coq.Bool.Bool.
From Verif Require Import Base.Fld Base.Lists Base.Sums Math.UnivariateModel.
Import ListNotations.

Section Model.
  Variable F : field.
  Local Open Scope fld_scope.

  (** lines 111-121: [fold_segment], in place *)
  Definition fold_segment (segment : list F) (z : F) : option (list F) :=
    let len := length segment in
    do s <- ofold (fun s i => do a <- nth_error s (2 * i)%nat; do b <- nth_error s (2 * i + 1)%nat;
                              Some (upd s i (extrapolate_line a b z))) (seq 0 (len / 2)) segment;
    if (len mod 2 =? 1)%nat then
      let i := (len / 2)%nat in
      do a <- nth_error s (2 * i)%nat; Some (upd s i (extrapolate_line a 0 z))
    else Some s.

  (** lines 94-102: the state is (piece_evals, index, n_to_fold) *)
  Fixpoint piece_loop (npbv : list nat) (i : nat) (point : list F) (evals : list F) (index ntf : nat)
    : option (list F) :=
    match point with
    | [] => Some evals
    | r :: point' =>
      let ntf := (ntf + nth i npbv 0)%nat in
      if (ntf <=? index) && (index <=? length evals) then
        do s <- fold_segment (firstn ntf (skipn (index - ntf) evals)) r;
        let evals := firstn (index - ntf) evals ++ s ++ skipn index evals in
        let out := (ntf / 2)%nat in
        piece_loop npbv (S i) point' evals (index - out) (ntf - out)
      else None
    end.

  (** lines 49-105; sums and shifts of [usize] are taken not to overflow *)
  Definition evaluate_piecewise_multilinear (point : list F) (npbv : list nat) (evals : list F) : res F :=
    let total := list_sum (map (fun i => nth i npbv 0 * 2 ^ i) (seq 0 (length npbv)))%nat in
    if 2 ^ length point <? total then Err
    else if negb (length evals =? list_sum npbv) then Err
    else of_opt (do l <- piece_loop npbv 0 point evals (length evals) 0; nth_error l 0).
End Model.

Arguments fold_segment {_} _ _.
Arguments piece_loop {_} _ _ _ _ _ _.
Arguments evaluate_piecewise_multilinear {_} _ _ _.
