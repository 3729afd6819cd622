(** Model of the subcube accessors of crates/math/src/mle_adapters.rs ([MLEEmbeddingAdapter],
    [MLEDirectAdapter]).  Slices of packed elements are flat lists of scalars; the scalars of the
    polynomial are represented by their images in the extension field; [lw]: packing of the
    polynomial, [le]: packing of the query and of the output. *)
Require Import Coq.Arith.Arith Coq.Lists.List Coq.Bool.Bool.
From Verif Require Import Base.Fld Base.Lists Base.Sums Math.MleModel.
Import ListNotations.

Section Model.
  Variable F : field.
  Local Open Scope fld_scope.

  (** lines 576-608: [validate_subcube_partial_evals_params] *)
  Definition validate_subcube (n qn sv idx le out_len : nat) : bool :=
    ((qn + sv <=? n) && (idx <? 2 ^ (n - qn - sv)) && (out_len / 2 ^ le =? 2 ^ (sv - le)))%nat.

  (** lines 131-163 and 418-452: [subcube_partial_low_evals] *)
  Definition subcube_partial_low_evals (le : nat) (m : mlext F) (q : mquery F) (sv idx : nat) (out : list F)
    : res (list F) :=
    if negb (validate_subcube (me_mu m) (q_nvars q) sv idx le (length out)) then Err
    else of_opt (
      do ex <- expansion le q;
      let qn := q_nvars q in
      let start := (idx * 2 ^ (qn + sv))%nat in
      ofold (fun o s =>
        let evals_start := (start + s * 2 ^ qn)%nat in
        do v <- osum (2 ^ qn) (fun i => do a <- nth_error ex i;
                                          do b <- nth_error (me_evals m) (evals_start + i)%nat; Some (a * b));
        if (s <? length o)%nat then Some (upd o s v) else None) (seq 0 (2 ^ sv)) out).

  (** lines 165-210 and 454-495: [subcube_partial_high_evals]; [outer_index << LOG_WIDTH | inner_index]
      is the flat index [j] *)
  Definition subcube_partial_high_evals (le : nat) (m : mlext F) (q : mquery F) (sv idx : nat) (out : list F)
    : res (list F) :=
    if negb (validate_subcube (me_mu m) (q_nvars q) sv idx le (length out)) then Err
    else of_opt (
      do ex <- expansion le q;
      let qn := q_nvars q in
      do o <- ofold (fun o qi =>
        do factor <- nth_error ex qi;
        let start := Nat.lor (Nat.shiftl idx sv) (Nat.shiftl qi (me_mu m - qn)) in
        omap (fun jo => do e <- nth_error (me_evals m) (Nat.lor start (fst jo));
                        Some (snd jo + factor * e)) (combine (seq 0 (length o)) o))
        (seq 0 (2 ^ qn)) (repeat 0 (length out));
      if (sv <? le)%nat then
        if (length o <? 2 ^ le)%nat then None
        else Some (fold_left (fun o i => upd o i 0) (seq (2 ^ sv) (2 ^ le - 2 ^ sv)) o)
      else Some o).

  (** [subcube_evals] with [log_embedding_degree = 0]: lines 212-256 ([direct = false]) and 497-549
      ([direct = true]); the many-to-one embedding of lines 257-285 is not modelled. *)
  Definition subcube_evals (direct : bool) (le : nat) (m : mlext F) (sv idx : nat) (out : list F) : res (list F) :=
    if (me_mu m <? sv)%nat then Err
    else if negb (length out / 2 ^ le =? 2 ^ (sv - le))%nat then Err
    else if (2 ^ (me_mu m - sv) <=? idx)%nat then Err
    else if (direct && (le <=? sv))%nat%bool then
      let lo := (idx * 2 ^ (sv - le))%nat in
      let hi := ((idx + 1) * 2 ^ (sv - le))%nat in
      if (hi * 2 ^ le <=? length (me_evals m))%nat
      then Ok (firstn ((hi - lo) * 2 ^ le) (skipn (lo * 2 ^ le) (me_evals m)))
      else Panic
    else of_opt (
      ofold (fun o i => do x <- nth_error (me_evals m) (idx * 2 ^ sv + i)%nat;
                        if (i <? length o)%nat then Some (upd o i x) else None) (seq 0 (2 ^ sv)) out).
End Model.

Arguments subcube_partial_low_evals {_} _ _ _ _ _ _.
Arguments subcube_partial_high_evals {_} _ _ _ _ _ _.
Arguments subcube_evals {_} _ _ _ _ _ _.
