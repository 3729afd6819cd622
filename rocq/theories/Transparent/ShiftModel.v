(** Model of crates/core/src/transparent/shift_ind.rs.  All fields are of characteristic 2, as all
    fields of the code base are.  A packed element is the list of its [2^lw] lanes. *)
Require Import Coq.Arith.PeanoNat Coq.Lists.List.
From Verif Require Import Base.Fld Base.Lists Base.Sums Math.MleModel.
Import ListNotations.

(** oracle/multilinear.rs, enum ShiftVariant *)
Inductive shift_variant := CircularLeft | LogicalLeft | LogicalRight.

Section Model.
  Variable F : field.
  Local Open Scope fld_scope.

  (** field/src/util.rs lines 74-81, for characteristic 2 *)
  Definition eq_bin (x y : F) : F := x + y + 1.

  (** lines 88-98 *)
  Record shift_ind : Type :=
    mkShift { sh_block : nat; sh_offset : nat; sh_variant : shift_variant; sh_r : list F }.

  (** lines 213-231; true when the arguments are valid *)
  Definition valid_shift_args (block_size shift_offset : nat) (point : list F) : bool :=
    if negb (length point =? block_size)%nat then false
    else negb ((shift_offset =? 0)%nat || (2 ^ block_size <=? shift_offset)%nat).

  (** lines 101-114 *)
  Definition shift_new (block_size shift_offset : nat) (variant : shift_variant) (r : list F)
    : res shift_ind :=
    if valid_shift_args block_size shift_offset r
    then Ok (mkShift block_size shift_offset variant r) else Err.

  (** lines 205-208 *)
  Definition get_left_shift_offset (block_size right_shift_offset : nat) : nat :=
    (2 ^ block_size - right_shift_offset)%nat.

  (** lines 251-268, the loop body *)
  Definition help_step (o_k : nat) (x y : F) (s : F * F) : F * F :=
    let '(s_ind_p, s_ind_pp) := s in
    let product := x * y in
    if Nat.odd o_k then
      ((y - product) * s_ind_p, (x - product) * s_ind_p + eq_bin x y * s_ind_pp)
    else
      (eq_bin x y * s_ind_p + (y - product) * s_ind_pp, (x - product) * s_ind_pp).

  Definition help_loop (block_size shift_offset : nat) (x y : list F) : F * F :=
    fold_left (fun s k => help_step (shift_offset / 2 ^ k) (nth k x 0) (nth k y 0) s)
              (seq 0 block_size) (1, 0).

  (** lines 237-271 *)
  Definition evaluate_shift_ind_help (block_size shift_offset : nat) (x y : list F) : res (F * F) :=
    if negb (length x =? block_size)%nat then Err
    else if negb (valid_shift_args block_size shift_offset y) then Err
    else Ok (help_loop block_size shift_offset x y).

  (** lines 162-184 and 191-200 *)
  Definition shift_evaluate (s : shift_ind) (x : list F) : res F :=
    if negb (length x =? sh_block s)%nat then Err
    else
      let left_shift_offset :=
        match sh_variant s with
        | CircularLeft | LogicalLeft => sh_offset s
        | LogicalRight => get_left_shift_offset (sh_block s) (sh_offset s)
        end in
      try ppp <- evaluate_shift_ind_help (sh_block s) left_shift_offset x (sh_r s);
      let '(p_res, pp_res) := ppp in
      match sh_variant s with
      | CircularLeft => Ok (p_res + pp_res)
      | LogicalLeft => Ok p_res
      | LogicalRight => Ok pp_res
      end.

  (** Lane-wise operations on packed elements. *)
  Definition lanes (lw : nat) (f : nat -> F) : list F := map f (seq 0 (2 ^ lw)).

  (** lines 311-323, one lane: (pp_lo, pp_hi, p_hi) *)
  Definition odd_step (p pp r_k : F) : F * F * F :=
    let pp_lo := pp in
    let pp_hi := pp_lo * r_k in
    let pp_lo := pp_lo - pp_hi in
    let p_lo := p in
    let p_hi := p_lo * r_k in
    let pp_hi := pp_hi + (p_lo - p_hi) in
    (pp_lo, pp_hi, p_hi).

  (** lines 325-337, one lane: (p_lo, p_hi, pp_hi) *)
  Definition even_step (p pp r_k : F) : F * F * F :=
    let p_lo := p in
    let p_hi := p_lo * r_k in
    let p_lo := p_lo - p_hi in
    let pp_lo := pp in
    let pp_hi := pp_lo * (1 - r_k) in
    let p_lo := p_lo + (pp_lo - pp_hi) in
    (p_lo, p_hi, pp_hi).

  (** A slice store that panics out of bounds. *)
  Definition store {A} (l : list A) (i : nat) (v : A) : option (list A) :=
    if (i <? length l)%nat then Some (upd l i v) else None.

  (** lines 346-377: the loop body for one [k] and one [i]; [1 << k | i] is [2^k + i] since [i < 2^k] *)
  Definition buffers_body (lw k : nat) (odd : bool) (r_k : F) (s : list (list F) * list (list F)) (i : nat)
    : option (list (list F) * list (list F)) :=
    let '(ps, pps) := s in
    do p <- nth_error ps i;
    do pp <- nth_error pps i;
    let lane f := lanes lw (fun l => f (nth l p 0) (nth l pp 0)) in
    if odd then
      do pps <- store pps i (lane (fun a b => fst (fst (odd_step a b r_k))));
      do pps <- store pps (2 ^ k + i) (lane (fun a b => snd (fst (odd_step a b r_k))));
      do ps <- store ps i (lane (fun a b => snd (odd_step a b r_k)));
      do ps <- store ps (2 ^ k + i) (lanes lw (fun _ => 0));
      Some (ps, pps)
    else
      do ps <- store ps i (lane (fun a b => fst (fst (even_step a b r_k))));
      do ps <- store ps (2 ^ k + i) (lane (fun a b => snd (fst (even_step a b r_k))));
      do pps <- store pps i (lanes lw (fun _ => 0));
      do pps <- store pps (2 ^ k + i) (lane (fun a b => snd (even_step a b r_k)));
      Some (ps, pps).

  (** lines 339-378 *)
  Definition with_buffers (lw block_size shift_offset : nat) (r : list F)
    (s : list (list F) * list (list F)) : option (list (list F) * list (list F)) :=
    ofold (fun s k =>
             do r_k <- nth_error r k;
             ofold (buffers_body lw k (Nat.odd (shift_offset / 2 ^ k)) r_k) (seq 0 (2 ^ k)) s)
          (seq 0 block_size) s.

  (** lines 396-449, the loop body: all updates within one packed element *)
  Definition within_body (lw k : nat) (odd : bool) (r_k : F) (s : list F * list F) : list F * list F :=
    let '(p, pp) := s in
    let at_ (f : F -> F -> F) (i : nat) := f (nth i p 0) (nth i pp 0) in
    let sel (lo hi : nat -> F) (old : list F) :=
      lanes lw (fun i => if (i <? 2 ^ k)%nat then lo i
                         else if (i <? 2 ^ (k + 1))%nat then hi (i - 2 ^ k)%nat
                         else nth i old 0) in
    if odd then
      (sel (at_ (fun a b => snd (odd_step a b r_k))) (fun _ => 0) p,
       sel (at_ (fun a b => fst (fst (odd_step a b r_k)))) (at_ (fun a b => snd (fst (odd_step a b r_k)))) pp)
    else
      (sel (at_ (fun a b => fst (fst (even_step a b r_k)))) (at_ (fun a b => snd (fst (even_step a b r_k)))) p,
       sel (fun _ => 0) (at_ (fun a b => snd (even_step a b r_k))) pp).

  Definition within_packed (lw block_size shift_offset : nat) (r : list F) (s : list F * list F)
    : option (list F * list F) :=
    ofold (fun s k => do r_k <- nth_error r k;
                      Some (within_body lw k (Nat.odd (shift_offset / 2 ^ k)) r_k s))
          (seq 0 block_size) s.

  (** lines 278-308 *)
  Definition partial_evaluate_hypercube (lw block_size shift_offset : nat) (r : list F)
    : res (list (list F) * list (list F)) :=
    if negb (valid_shift_args block_size shift_offset r) then Err
    else
      let n := (2 ^ (block_size - lw))%nat in
      let ps := repeat (lanes lw (fun _ => 1)) n in
      let pps := repeat (lanes lw (fun _ => 0)) n in
      of_opt (
        do p0 <- nth_error ps 0;
        do pp0 <- nth_error pps 0;
        do s0 <- within_packed lw (Nat.min block_size lw) shift_offset r (p0, pp0);
        let s := (upd ps 0 (fst s0), upd pps 0 (snd s0)) in
        if (lw <? block_size)%nat
        then with_buffers lw (block_size - lw) (shift_offset / 2 ^ lw) (skipn lw r) s
        else Some s).

  (** lines 116-161 *)
  Definition shift_extension (lw : nat) (s : shift_ind) : res (mlext F) :=
    match sh_variant s with
    | CircularLeft =>
      try t <- partial_evaluate_hypercube lw (sh_block s) (sh_offset s) (sh_r s);
      let '(ps, pps) := t in
      me_new lw (sh_block s)
        (concat (map (fun q => lanes lw (fun l => nth l (fst q) 0 + nth l (snd q) 0)) (combine ps pps)))
    | LogicalLeft =>
      try t <- partial_evaluate_hypercube lw (sh_block s) (sh_offset s) (sh_r s);
      me_new lw (sh_block s) (concat (fst t))
    | LogicalRight =>
      let right_shift_offset := get_left_shift_offset (sh_block s) (sh_offset s) in
      try t <- partial_evaluate_hypercube lw (sh_block s) right_shift_offset (sh_r s);
      me_new lw (sh_block s) (concat (snd t))
    end.
End Model.

Arguments mkShift {_} _ _ _ _.
Arguments sh_block {_} _.
Arguments sh_offset {_} _.
Arguments sh_variant {_} _.
Arguments sh_r {_} _.
Arguments eq_bin {_} _ _.
Arguments valid_shift_args {_} _ _ _.
Arguments shift_new {_} _ _ _ _.
Arguments help_step {_} _ _ _ _.
Arguments help_loop {_} _ _ _ _.
Arguments evaluate_shift_ind_help {_} _ _ _ _.
Arguments shift_evaluate {_} _ _.
Arguments lanes {_} _ _.
Arguments odd_step {_} _ _ _.
Arguments even_step {_} _ _ _.
Arguments store {_} _ _ _.
Arguments buffers_body {_} _ _ _ _ _ _.
Arguments with_buffers {_} _ _ _ _ _.
Arguments within_body {_} _ _ _ _ _.
Arguments within_packed {_} _ _ _ _ _.
Arguments partial_evaluate_hypercube {_} _ _ _ _.
Arguments shift_extension {_} _ _.
