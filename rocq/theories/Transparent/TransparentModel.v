(** Model of crates/core/src/transparent/{constant,disjoint_product,eq_ind,powers,select_row,
    step_down,step_up,tower_basis,multilinear_extension}.rs.

    A packed slice is the flat list of its scalars together with the log width [lw] of the packed
    type, as in Math/MleModel.v.  The scalar field of the tabulated multilinear and the field of the
    evaluation point are the same field [F] here: in the source the former may be a subfield, whose
    embedding is the identity on bit patterns (Field/TowerProps.v).  Polynomials that the source
    evaluates at packed points are modelled on one lane. *)
Require Import Coq.Arith.PeanoNat Coq.Lists.List Coq.NArith.NArith.
From Verif Require Import Base.Fld Base.Lists Base.Sums Math.MleModel Field.TowerModel Field.TowerProofs.
Import ListNotations.

Section Model.
  Variable F : field.
  Local Open Scope fld_scope.

  (** polynomial/multivariate.rs, trait MultivariatePoly: number of variables and evaluation. *)
  Record mvpoly : Type := mkMv { mv_nvars : nat; mv_eval : list F -> res F }.

  (* ------------------------------------------------------------------ *)
  (** * constant.rs *)

  (** constant.rs lines 46-54 *)
  Definition constant_poly (n : nat) (value : F) : mvpoly :=
    mkMv n (fun q => if negb (length q =? n)%nat then Err else Ok value).

  (* ------------------------------------------------------------------ *)
  (** * disjoint_product.rs, lines 17-40 *)
  Definition disjoint_product (p0 p1 : mvpoly) : mvpoly :=
    let n := (mv_nvars p0 + mv_nvars p1)%nat in
    mkMv n (fun q =>
      if negb (length q =? n)%nat then Err
      else
        try e0 <- mv_eval p0 (firstn (mv_nvars p0) q);
        try e1 <- mv_eval p1 (skipn (mv_nvars p0) q);
        Ok (e0 * e1)).

  (* ------------------------------------------------------------------ *)
  (** * eq_ind.rs *)

  (** lines 61-81: the zip of query and [r] *)
  Fixpoint eq_ind_loop (q r : list F) (result : F) : F :=
    match q, r with
    | q_i :: q, r_i :: r =>
      let term_one := q_i * r_i in
      let term_two := (1 - q_i) * (1 - r_i) in
      eq_ind_loop q r (result * (term_one + term_two))
    | _, _ => result
    end.

  Definition eq_ind_poly (r : list F) : mvpoly :=
    mkMv (length r) (fun q => if negb (length q =? length r)%nat then Err else Ok (eq_ind_loop q r 1)).

  (** lines 43-49; [tensor_product_full_query] is the tensor expansion of the query *)
  Definition eq_ind_extension (lw : nat) (r : list F) : res (mlext F) :=
    try e <- eq_ind_partial_eval lw r; me_new lw (length r) e.

  (* ------------------------------------------------------------------ *)
  (** * powers.rs *)

  (** lines 78-84 *)
  Fixpoint powers_loop (q : list F) (base_power result : F) : F :=
    match q with
    | [] => result
    | q_i :: q => powers_loop q (base_power * base_power) (result * (1 - q_i + q_i * base_power))
    end.

  (** lines 69-87 *)
  Definition powers_poly (n : nat) (base : F) : mvpoly :=
    mkMv n (fun q => if negb (length q =? n)%nat then Err else Ok (powers_loop q base 1)).

  (** lines 46-48: [std::iter::successors(..).take(n)] *)
  Fixpoint successors (base x : F) (n : nat) : list F :=
    match n with O => [] | S n => x :: successors base (x * base) n end.

  (** lines 45-53, one chunk of [len] packed elements: elements beyond the powers keep their zeros,
      and [from_scalars] pads the last packed element with zeros. *)
  Definition powers_chunk (lw n : nat) (base : F) (start_power len : nat) : list F :=
    let powers := successors base (fpow base start_power) (2 ^ n) in
    let total := (len * 2 ^ lw)%nat in
    firstn total (powers ++ repeat 0 total).

  (** line 40 *)
  Definition chunk_log_size : nat := 10.

  (** lines 35-58.  [start_power] is [chunk_index << CHUNK_LOG_SIZE] whatever the packing width; the
      chunks are independent of one another. *)
  Definition powers_extension (lw n : nat) (base : F) : res (mlext F) :=
    let len := (2 ^ (n - lw))%nat in
    let size := (2 ^ chunk_log_size)%nat in
    let values := concat (map (fun c => powers_chunk lw n base (c * size)
                                          (Nat.min size (len - c * size)))
                              (seq 0 (div_ceil len size))) in
    me_new lw n values.

  (* ------------------------------------------------------------------ *)
  (** * select_row.rs *)

  (** lines 37-45 *)
  Definition select_row_new (n index : nat) : res (nat * nat) :=
    if (2 ^ n <=? index)%nat then Err else Ok (n, index).

  (** lines 47-60 *)
  Definition select_row_extension (lw : nat) (s : nat * nat) : res (mlext F) :=
    let '(n, index) := s in
    if (n <? lw)%nat then Err
    else
      let zeros := repeat 0 (2 ^ (n - lw) * 2 ^ lw)%nat in
      if (index / 2 ^ lw <? 2 ^ (n - lw))%nat
      then me_from_values lw (upd zeros index 1)
      else Panic.

  (** lines 83-96 *)
  Fixpoint select_row_loop (q : list F) (k : nat) (result : F) : F :=
    match q with
    | [] => result
    | q_i :: q =>
      select_row_loop q (k / 2) (if Nat.odd k then result * q_i else result * (1 - q_i))
    end.

  (** lines 73-97 *)
  Definition select_row_poly (s : nat * nat) : mvpoly :=
    let '(n, index) := s in
    mkMv n (fun q => if negb (length q =? n)%nat then Err else Ok (select_row_loop q index 1)).

  (* ------------------------------------------------------------------ *)
  (** * step_down.rs and step_up.rs *)

  (** step_down.rs 36-44, step_up.rs 39-47 *)
  Definition step_new (n index : nat) : res (nat * nat) :=
    if (2 ^ n <? index)%nat then Err else Ok (n, index).

  (** step_down.rs 61-68 with [below] = 1 and [above] = 0; step_up.rs 60-67 with the two exchanged.
      None models the panics of slicing and indexing. *)
  Definition step_populate (lw : nat) (below above : F) (index : nat) (data : list F)
    : option (list F) :=
    let w := (2 ^ lw)%nat in
    let packed_index := (index / w)%nat in
    if (packed_index * w <=? length data)%nat then
      ofold (fun d i => if (packed_index * w <? length d)%nat
                        then Some (upd d (packed_index * w + i) below) else None)
            (seq 0 (index mod w))
            (repeat below (packed_index * w) ++ repeat above (length data - packed_index * w))
    else None.

  (** step_down.rs 54-59 *)
  Definition step_down_extension (lw : nat) (s : nat * nat) : res (mlext F) :=
    let '(n, index) := s in
    try data <- of_opt (step_populate lw 1 0 index (repeat 0 (2 ^ (n - lw) * 2 ^ lw)%nat));
    me_new lw n data.

  (** step_up.rs 53-58 *)
  Definition step_up_extension (lw : nat) (s : nat * nat) : res (mlext F) :=
    let '(n, index) := s in
    try data <- of_opt (step_populate lw 0 1 index (repeat 1 (2 ^ (n - lw) * 2 ^ lw)%nat));
    me_new lw n data.

  (** step_down.rs 95-104 *)
  Fixpoint step_down_loop (q : list F) (k : nat) (result : F) : F :=
    match q with
    | [] => result
    | q_i :: q =>
      step_down_loop q (k / 2)
        (if Nat.odd k then (1 - q_i) + result * q_i else result * (1 - q_i))
    end.

  (** step_down.rs 81-107 *)
  Definition step_down_poly (s : nat * nat) : mvpoly :=
    let '(n, index) := s in
    mkMv n (fun q =>
      if negb (length q =? n)%nat then Err
      else if (index =? 2 ^ n)%nat then Ok 1
      else Ok (step_down_loop q index 0)).

  (** step_up.rs 95-104 *)
  Fixpoint step_up_loop (q : list F) (k : nat) (result : F) : F :=
    match q with
    | [] => result
    | q_i :: q =>
      step_up_loop q (k / 2)
        (if Nat.odd k then result * q_i else result * (1 - q_i) + q_i)
    end.

  (** step_up.rs 80-107 *)
  Definition step_up_poly (s : nat * nat) : mvpoly :=
    let '(n, index) := s in
    mkMv n (fun q =>
      if negb (length q =? n)%nat then Err
      else if (index =? 2 ^ n)%nat then Ok 0
      else Ok (step_up_loop q index 1)).

  (* ------------------------------------------------------------------ *)
  (** * multilinear_extension.rs *)

  (** lines 108-113: [from_values] *)
  Definition mlet_new (lw : nat) (values : list F) : res (mlext F) := me_from_values lw values.

  (** lines 133-147: [n_vars] and the evaluation of the multilinear at the expanded query *)
  Definition mlet_poly (lw le : nat) (m : mlext F) : mvpoly :=
    mkMv (me_mu m) (fun q => try qq <- query_expand le q; me_evaluate lw le m qq).
End Model.

Arguments mkMv {_} _ _.
Arguments mv_nvars {_} _.
Arguments mv_eval {_} _ _.
Arguments constant_poly {_} _ _.
Arguments disjoint_product {_} _ _.
Arguments eq_ind_loop {_} _ _ _.
Arguments eq_ind_poly {_} _.
Arguments eq_ind_extension {_} _ _.
Arguments powers_loop {_} _ _ _.
Arguments powers_poly {_} _ _.
Arguments successors {_} _ _ _.
Arguments powers_chunk {_} _ _ _ _ _.
Arguments powers_extension {_} _ _ _.
Arguments select_row_extension {_} _ _.
Arguments select_row_loop {_} _ _ _.
Arguments select_row_poly {_} _.
Arguments step_populate {_} _ _ _ _ _.
Arguments step_down_extension {_} _ _.
Arguments step_up_extension {_} _ _.
Arguments step_down_loop {_} _ _ _.
Arguments step_down_poly {_} _.
Arguments step_up_loop {_} _ _ _.
Arguments step_up_poly {_} _.
Arguments mlet_new {_} _ _.
Arguments mlet_poly {_} _ _ _.

(* -------------------------------------------------------------------- *)
(** * tower_basis.rs, for the field of tower level [L] *)

(** binary_field.rs lines 60-72 *)
Definition tower_basis_elt (L iota i : nat) : res (TF L) :=
  if (L <? iota)%nat then Err
  else if (2 ^ (L - iota) <=? i)%nat then Err
  else match tbasis L 0 (N.of_nat (i * 2 ^ iota)) with
       | Some v => Ok (dec L v)
       | None => Err
       end.

(** tower_basis.rs lines 41-53 *)
Definition tower_basis_new (L k iota : nat) : res (nat * nat) :=
  if (L <? iota + k)%nat then Err else Ok (k, iota).

(** Result-collecting iteration: the first failure is the result. *)
Fixpoint rmap {A B} (f : A -> res B) (l : list A) : res (list B) :=
  match l with
  | [] => Ok []
  | a :: l => rbind (f a) (fun b => rbind (rmap f l) (fun bs => Ok (b :: bs)))
  end.

(** tower_basis.rs lines 55-72 *)
Definition tower_basis_extension (lw L : nat) (s : nat * nat) : res (mlext (TF L)) :=
  let '(k, iota) := s in
  let n_values := 2 ^ k / 2 ^ lw in
  rbind (rmap (fun i => rmap (fun j => tower_basis_elt L iota (i * 2 ^ lw + j)) (seq 0 (2 ^ lw)))
              (seq 0 n_values))
        (fun values => me_from_values lw (concat values)).

(** tower_basis.rs lines 96-103 *)
Fixpoint tower_basis_loop (L iota : nat) (q : list (TF L)) (i : nat) (result : TF L) : res (TF L) :=
  match q with
  | [] => Ok result
  | q_i :: q =>
    rbind (tower_basis_elt L (iota + i) 1) (fun r_comp =>
      tower_basis_loop L iota q (S i)
        (fmul result (fadd (fsub f1 q_i) (fmul q_i r_comp))))
  end.

(** tower_basis.rs lines 88-106 *)
Definition tower_basis_poly (L : nat) (s : nat * nat) : mvpoly (TF L) :=
  let '(k, iota) := s in
  mkMv k (fun q => if negb (length q =? k)%nat then Err else tower_basis_loop L iota q 0 f1).

(* -------------------------------------------------------------------- *)
(** * multilinear_extension.rs: serialization, over the 128-bit field (tower level 7)

    The underlier has [2^u] bits.  A transparent multilinear over the subfield of level [j] holds
    packed elements of [2^(u-j)] scalars; here the flat list of scalars as bit patterns. *)

(** Lines 44-56: [packed_evals] reinterprets the underliers of the packed subfield elements as packed
    128-bit elements (mle_adapters.rs 302-304), so [2^(7-j)] consecutive scalars form one serialized
    element, the first in the low bits. *)
Fixpoint join_bits (j : nat) (l : list N) : N :=
  match l with
  | [] => 0%N
  | x :: l => N.lor x (N.shiftl (join_bits j l) (nbits j))
  end.

Definition mlet_serialize (j : nat) (values : list N) : list N :=
  map (fun i => join_bits j (firstn (2 ^ (7 - j)) (skipn (i * 2 ^ (7 - j)) values)))
      (seq 0 (length values / 2 ^ (7 - j))).

(** Lines 59-84 and 88-99: the first level, lowest first, that contains all elements; then
    [pack_slice] (packed.rs 443-448: the last packed element is padded with zeros) and
    [from_values(..).unwrap()].  The result is the level, the number of variables and the table. *)
Definition mlet_level (elems : list N) : nat :=
  match find (fun l => forallb (fun e => match ttry_from l e with Some _ => true | None => false end)
                               elems) (seq 0 7) with
  | Some l => l
  | None => 7
  end.

Definition mlet_deserialize (u : nat) (elems : list N) : res (nat * nat * list N) :=
  let l := mlet_level elems in
  let w := 2 ^ (u - l) in
  let packed := div_ceil (length elems) w in
  if is_pow2 packed
  then Ok (l, Nat.log2 packed + (u - l), elems ++ repeat 0%N (packed * w - length elems))
  else Panic.
