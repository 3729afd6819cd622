(** Model of the checked integer helpers.

    /repo/crates/utils/src/checked_arithmetics.rs

    A [usize] is an [N] below 2^64 (the theorems carry that bound); a failed `assert!`, a division
    by zero and a failed `expect` are [None]. *)
Require Import Coq.NArith.NArith.
Open Scope N_scope.

(** `usize::BITS` *)
Definition usize_bits : N := 64.

(** `usize::trailing_zeros` (64 for zero) *)
Fixpoint pos_ctz (p : positive) : N :=
  match p with
  | xO q => N.succ (pos_ctz q)
  | _ => 0
  end.
Definition trailing_zeros (v : N) : N := match v with 0 => usize_bits | Npos p => pos_ctz p end.
(** `usize::leading_zeros` *)
Definition leading_zeros (v : N) : N := usize_bits - N.size v.
(** `usize::wrapping_shr`: the shift amount is taken modulo the width. *)
Definition wrapping_shr (v s : N) : N := N.shiftr v (s mod usize_bits).
(** `usize::saturating_sub` *)
Definition saturating_sub (a b : N) : N := a - b.

(** [checked_int_div], lines 5-10. *)
Definition checked_int_div (a b : N) : option N :=
  if b =? 0 then None
  else let result := a / b in if b * result =? a then Some result else None.

(** [strict_log_2], lines 16-27. *)
Definition strict_log_2 (v : N) : option N :=
  if v =? 0 then None
  else let pow := trailing_zeros v in
       if wrapping_shr v pow =? 1 then Some pow else None.

(** [checked_log_2], lines 32-34 (the inner `None` is the panic of `expect`). *)
Definition checked_log_2 (v : N) : option N := strict_log_2 v.

(** [min_bits], lines 48-50. *)
Definition min_bits (n : N) : N := usize_bits - leading_zeros n.

(** [log2_ceil_usize], lines 40-42. *)
Definition log2_ceil_usize (n : N) : N := min_bits (saturating_sub n 1).

(** [log2_strict_usize], lines 58-62. *)
Definition log2_strict_usize (n : N) : option N :=
  let r := trailing_zeros n in
  if wrapping_shr n r =? 1 then Some r else None.
