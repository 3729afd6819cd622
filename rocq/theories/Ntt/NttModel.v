(** Model of crates/ntt/src/single_threaded.rs.

    A packed element of width [2^lw] is the list of its [2^lw] scalars; its arithmetic acts on each
    scalar (C09) and [interleave] is the block interleaving of C10.  The data is a list of packed
    elements.  [None]/[Panic] is an index out of range or an arithmetic underflow.  Shift amounts
    and lengths are mathematical naturals (no 64-bit wraparound). *)
Require Import Coq.Arith.Arith Coq.Lists.List Coq.Bool.Bool.
From Verif Require Import Base.Fld Base.Lists Base.Sums Ntt.TwiddleModel.
Import ListNotations.

(** crates/ntt/src/additive_ntt.rs 22-30 *)
Record shape := mkShape { log_x : nat; log_y : nat; log_z : nat }.

Section Model.
  Variable F : field.
  Local Open Scope fld_scope.

  Notation pack := (list F).

  Definition zip_with (f : F -> F -> F) (a b : pack) : pack := map (fun '(x, y) => f x y) (combine a b).

  (** [a + b * c], [a + b] and [b + c] lane by lane *)
  Definition pk_add (a b : pack) : pack := zip_with fadd a b.
  Definition pk_mul (a b : pack) : pack := zip_with fmul a b.

  (** PackedField::interleave with block length [2^lb]; panics when [lb >= lw] *)
  Definition pk_interleave (lw lb : nat) (a b : pack) : option (pack * pack) :=
    if (lb <? lw)%nat then
      Some (map (fun s => if Nat.testbit s lb then nth (s - 2 ^ lb) b 0 else nth s a 0) (seq 0 (2 ^ lw)),
            map (fun s => if Nat.testbit s lb then nth s b 0 else nth (s + 2 ^ lb) a 0) (seq 0 (2 ^ lw)))
    else None.

  Definition pk_broadcast (lw : nat) (x : F) : pack := repeat x (2 ^ lw).

  Definition is_power_of_two (n : nat) : bool := negb (n =? 0)%nat && (2 ^ Nat.log2 n =? n)%nat.

  (** lines 366-408 *)
  Definition check_params (lw log_domain_size : nat) (data : list pack) (sh : shape) (coset coset_bits skip : nat)
    : res unit :=
    if negb (is_power_of_two (length data)) then Err
    else if (log_y sh <? skip)%nat then Err
    else
      let full_sized_y := Nat.shiftr (length data * 2 ^ lw) (log_x sh + log_z sh) in
      if (negb (2 ^ log_y sh =? full_sized_y)%nat && (2 <? length data)%nat) || (full_sized_y <? 2 ^ log_y sh)%nat
      then Err
      else if (2 ^ coset_bits <=? coset)%nat then Err
      else if (log_domain_size <? log_y sh + coset_bits)%nat then Err
      else Ok tt.

  (** [twiddle.set(idx, v)] *)
  Definition set_lane (p : pack) (i : nat) (v : F) : option pack :=
    if (i <? length p)%nat then Some (upd p i v) else None.

  (** A usize subtraction [a - b] panics when it underflows. *)
  Definition underflows (a b : nat) : bool := (a <? b)%nat.

  (** lines 410-461 *)
  Definition additive_twiddle (lw : nat) (t : twiddle F) (sh : shape) (round : nat) : option pack :=
    let log_block_len := (round + log_x sh)%nat in
    let packed_log_len := Nat.min (log_x sh + log_y sh + log_z sh) lw in
    let log_blocks_count := (packed_log_len - (log_block_len + 1))%nat in
    let packed_log_z := (packed_log_len - (log_x sh + log_y sh))%nat in
    let packed_log_y := (packed_log_len - packed_log_z - log_x sh)%nat in
    let twiddle_stride := Nat.min (lw - log_x sh) (log_blocks_count - packed_log_z) in
    if underflows packed_log_len (packed_log_z + log_x sh) || underflows log_blocks_count packed_log_z
       || underflows log_blocks_count twiddle_stride
    then None else
    ofold (fun tw '(i, j) =>
      do p <- (if (packed_log_y =? log_y sh)%nat
               then do same <- tw_get t j; Some (same, same)
               else tw_get_pair t twiddle_stride j);
      let idx0 := Nat.lor (Nat.shiftl j (log_block_len + 1))
                          (Nat.shiftl i (log_block_len + twiddle_stride + 1)) in
      let idx1 := Nat.lor idx0 (Nat.shiftl 1 log_block_len) in
      ofold (fun tw k =>
        do tw1 <- set_lane tw (Nat.lor idx0 k) (fst p);
        set_lane tw1 (Nat.lor idx1 k) (snd p)) (seq 0 (2 ^ log_block_len)) tw)
      (list_prod (seq 0 (2 ^ (log_blocks_count - twiddle_stride))) (seq 0 (2 ^ twiddle_stride)))
      (repeat 0 (2 ^ lw)).

  (** An in-place update of two distinct entries. *)
  Definition update2 (data : list pack) (i0 i1 : nat) (f : pack -> pack -> option (pack * pack)) : option (list pack) :=
    do a <- nth_error data i0;
    do b <- nth_error data i1;
    do r <- f a b;
    Some (upd (upd data i0 (fst r)) i1 (snd r)).

  (** lines 208-209: [u += v * t; v += u] *)
  Definition butterfly (t a b : pack) : option (pack * pack) :=
    let a' := pk_add a (pk_mul b t) in Some (a', pk_add b a').
  (** lines 346-347: [v += u; u += v * t] *)
  Definition inv_butterfly (t a b : pack) : option (pack * pack) :=
    let b' := pk_add b a in Some (pk_add a (pk_mul b' t), b').

  (** lines 193-212 (and 331-350 with [inv_butterfly]): a round above the cutoff *)
  Definition big_round (bf : pack -> pack -> pack -> option (pack * pack))
      (lw : nat) (s_evals : list (twiddle F)) (sh : shape) (coset : nat) (data : list pack) (i : nat)
    : option (list pack) :=
    do t <- nth_error s_evals i;
    if underflows (log_y sh) (1 + i) || underflows (log_x sh + log_y sh) lw || underflows (log_x sh + i) lw
    then None else
    let coset_offset := Nat.shiftl coset (log_y sh - 1 - i) in
    ofold (fun data '((j, k), l) =>
      do tw <- tw_get t (Nat.lor coset_offset k);
      let idx0 := Nat.lor (Nat.lor (Nat.shiftl j (log_x sh + log_y sh - lw))
                                   (Nat.shiftl k (log_x sh + i + 1 - lw))) l in
      let idx1 := Nat.lor idx0 (Nat.shiftl 1 (log_x sh + i - lw)) in
      update2 data idx0 idx1 (bf (pk_broadcast lw tw)))
      (list_prod (list_prod (seq 0 (2 ^ log_z sh)) (seq 0 (2 ^ (log_y sh - 1 - i))))
                 (seq 0 (2 ^ (i + log_x sh - lw)))) data.

  (** lines 214-242 (and 297-327): a round below the cutoff *)
  Definition small_round (bf : pack -> pack -> pack -> option (pack * pack))
      (lw : nat) (s_evals : list (twiddle F)) (sh : shape) (coset : nat) (data : list pack) (i : nat)
    : option (list pack) :=
    let cutoff := (lw - log_x sh)%nat in
    do t <- nth_error s_evals i;
    if underflows (log_y sh) (1 + i) || underflows cutoff i then None else
    let coset_offset := Nat.shiftl coset (log_y sh - 1 - i) in
    do block_twiddle <- additive_twiddle lw t sh i;
    let log_block_len := (i + log_x sh)%nat in
    let log_packed_count := (log_y sh - 1 - cutoff)%nat in
    ofold (fun data '(j, k) =>
      do g <- tw_get t (Nat.lor coset_offset (Nat.shiftl k (cutoff - i)));
      let tw := pk_add (pk_broadcast lw g) block_twiddle in
      let index := Nat.lor (Nat.shiftl k 1) (Nat.shiftl j (log_packed_count + 1)) in
      update2 data index (Nat.lor index 1) (fun a b =>
        do uv <- pk_interleave lw log_block_len a b;
        do uv' <- bf tw (fst uv) (snd uv);
        pk_interleave lw log_block_len (fst uv') (snd uv')))
      (list_prod (seq 0 (2 ^ (log_x sh + log_y sh + log_z sh - (lw + log_packed_count + 1))))
                 (seq 0 (2 ^ log_packed_count))) data.

  (** lines 167-245 after the special cases: the rounds from high to low *)
  Definition forward_rounds (lw : nat) (s_evals : list (twiddle F)) (sh : shape) (coset skip : nat) (data : list pack)
    : option (list pack) :=
    let cutoff := (lw - log_x sh)%nat in
    let top := (log_y sh - skip)%nat in
    do d1 <- ofold (big_round butterfly lw s_evals sh coset) (rev (seq cutoff (top - cutoff))) data;
    ofold (small_round butterfly lw s_evals sh coset) (rev (seq 0 (Nat.min cutoff top))) d1.

  (** lines 278-353: the rounds from low to high *)
  Definition inverse_rounds (lw : nat) (s_evals : list (twiddle F)) (sh : shape) (coset skip : nat) (data : list pack)
    : option (list pack) :=
    let cutoff := (lw - log_x sh)%nat in
    let top := (log_y sh - skip)%nat in
    do d1 <- ofold (small_round inv_butterfly lw s_evals sh coset) (seq 0 (Nat.min cutoff top)) data;
    ofold (big_round inv_butterfly lw s_evals sh coset) (seq cutoff (top - cutoff)) d1.

  (** lines 129-245 and 247-353 with the rounds as a parameter.  The recursive call of the
      one-element case has two elements and does not recurse again. *)
  Definition transform (rounds : list (twiddle F) -> list pack -> option (list pack))
      (lw log_domain_size : nat) (s_evals : list (twiddle F)) (data : list pack) (sh : shape)
      (coset coset_bits skip : nat) : res (list pack) :=
    let body data :=
      try _ <- check_params lw log_domain_size data sh coset coset_bits skip;
      of_opt (rounds (skipn (log_domain_size - (log_y sh + coset_bits)) s_evals) data) in
    try _ <- check_params lw log_domain_size data sh coset coset_bits skip;
    match data with
    | [] => Ok data
    | [d] => if (lw =? 0)%nat then Ok data
             else try buffer <- body [d; repeat 0 (2 ^ lw)];
                  of_opt (do r <- nth_error buffer 0; Some [r])
    | _ => body data
    end.

  Definition forward_transform (lw log_domain_size : nat) (s_evals : list (twiddle F)) (data : list pack) (sh : shape)
      (coset coset_bits skip : nat) : res (list pack) :=
    transform (fun s d => forward_rounds lw s sh coset skip d) lw log_domain_size s_evals data sh coset coset_bits skip.

  Definition inverse_transform (lw log_domain_size : nat) (s_evals : list (twiddle F)) (data : list pack) (sh : shape)
      (coset coset_bits skip : nat) : res (list pack) :=
    transform (fun s d => inverse_rounds lw s sh coset skip d) lw log_domain_size s_evals data sh coset coset_bits skip.

  (** lines 79-87: AdditiveNTT::subspace; the subtraction underflows for [i > log_domain_size] *)
  Definition ntt_subspace (s_evals : list (twiddle F)) (i : nat) : option (list F) :=
    if (length s_evals <? i)%nat then None else
    do t <- nth_error s_evals (length s_evals - i);
    do p <- tw_affine_subspace t;
    Some (fst p).

  (** lines 89-91: the overriding get_subspace_eval *)
  Definition ntt_subspace_eval (s_evals : list (twiddle F)) (i j : nat) : option F :=
    if (length s_evals <? i)%nat then None else
    do t <- nth_error s_evals (length s_evals - i);
    tw_get t j.

  (** additive_ntt.rs 83-85: the default get_subspace_eval *)
  Definition default_subspace_eval (s_evals : list (twiddle F)) (i j : nat) : option F :=
    do b <- ntt_subspace s_evals i; nth_error b j.
End Model.

Arguments zip_with {_} _ _ _.
Arguments pk_add {_} _ _.
Arguments pk_mul {_} _ _.
Arguments pk_interleave {_} _ _ _ _.
Arguments pk_broadcast {_} _ _.
Arguments check_params {_} _ _ _ _ _ _ _.
Arguments set_lane {_} _ _ _.
Arguments additive_twiddle {_} _ _ _ _.
Arguments update2 {_} _ _ _ _.
Arguments butterfly {_} _ _ _.
Arguments inv_butterfly {_} _ _ _.
Arguments big_round {_} _ _ _ _ _ _ _.
Arguments small_round {_} _ _ _ _ _ _ _.
Arguments forward_rounds {_} _ _ _ _ _ _.
Arguments inverse_rounds {_} _ _ _ _ _ _.
Arguments transform {_} _ _ _ _ _ _ _ _ _.
Arguments forward_transform {_} _ _ _ _ _ _ _ _.
Arguments inverse_transform {_} _ _ _ _ _ _ _ _.
Arguments ntt_subspace {_} _ _.
Arguments ntt_subspace_eval {_} _ _ _.
Arguments default_subspace_eval {_} _ _ _.
