(** Model of the commitment metadata and claim grouping of the polynomial IOP compiler:
    crates/core/src/piop/{verify.rs 28-270, commit.rs, util.rs}.  Machine sizes are unbounded. *)
Require Import Coq.Arith.Arith Coq.Lists.List Coq.Bool.Bool Lia.
From Verif Require Import Base.Fld Base.Lists Base.Sums.
Import ListNotations.
Local Open Scope nat_scope.

(** CommitMeta (verify.rs 34-45). *)
Record commit_meta := mkMeta {
  n_multilins_by_vars : list nat;
  offsets_by_vars : list nat;
  total_vars : nat;
  total_multilins : nat }.

(** [usize::next_power_of_two] and [ilog2] (verify.rs 66). *)
Definition next_power_of_two (n : nat) : nat := if n <=? 1 then 1 else 2 ^ Nat.log2_up n.

(** The fold of CommitMeta::new (verify.rs 55-62): (offsets, total_multilins, total_elems). *)
Definition meta_fold (counts : list nat) : list nat * nat * nat :=
  fold_left (fun st p =>
    let '(offsets, multilins, elems) := st in
    let (n_vars, count) := p : nat * nat in
    (offsets ++ [multilins], multilins + count, elems + count * 2 ^ n_vars))
    (combine (seq 0 (length counts)) counts) ([], 0, 0).

(** CommitMeta::new (verify.rs 54-70). *)
Definition meta_new (counts : list nat) : commit_meta :=
  let '(offsets, multilins, elems) := meta_fold counts in
  mkMeta counts offsets (Nat.log2 (next_power_of_two elems)) multilins.

(** ResizeableIndex::get_mut followed by [+= 1] (util.rs 14-19). *)
Definition bump (entries : list nat) (id : nat) : list nat :=
  let entries := entries ++ repeat 0 (S id - length entries) in
  upd entries id (S (nth id entries 0)).

(** CommitMeta::with_vars (verify.rs 74-80). *)
Definition with_vars (n_varss : list nat) : commit_meta := meta_new (fold_left bump n_varss []).

(** max_n_vars (verify.rs 83-85) and range_by_vars (94-97); indexing out of bounds panics. *)
Definition max_n_vars (m : commit_meta) : nat := length (n_multilins_by_vars m) - 1.
Definition range_by_vars (m : commit_meta) (n_vars : nat) : res (nat * nat) :=
  try start <- of_opt (nth_error (offsets_by_vars m) n_vars);
  try count <- of_opt (nth_error (n_multilins_by_vars m) n_vars);
  Ok (start, start + count).

(** n_packed_vars_for_committed_oracle (commit.rs 113-117). *)
Definition n_packed_vars (top n_vars tower_level : nat) : nat := n_vars + tower_level - top.

(** First pass of make_oracle_commit_meta (commit.rs 42-59).  An oracle is [Some v] if it is committed with [v] packed
    variables; its id is its position.  Result: per oracle (packed variables, index in its bucket), and the counts. *)
Fixpoint first_pass (oracles : list (option nat)) (counts : list nat) : list (option (nat * nat)) * list nat :=
  match oracles with
  | [] => ([], counts)
  | None :: rest => let (index, counts) := first_pass rest counts in (None :: index, counts)
  | Some v :: rest =>
    let (index, counts') := first_pass rest (bump counts v) in (Some (v, nth v counts 0) :: index, counts')
  end.
Definition second_pass_one (m : commit_meta) (e : option (nat * nat)) : res (option nat) :=
  match e with
  | None => Ok None
  | Some (v, idx) => try (start, _) <- range_by_vars m v; Ok (Some (start + idx))
  end.
Fixpoint map_r {A B} (f : A -> res B) (l : list A) : res (list B) :=
  match l with [] => Ok [] | x :: r => try y <- f x; try ys <- map_r f r; Ok (y :: ys) end.
(** make_oracle_commit_meta (commit.rs 20-76).  The sparse index is a list of options by oracle id. *)
Definition make_oracle_commit_meta (oracles : list (option nat)) : res (commit_meta * list (option nat)) :=
  let (first, counts) := first_pass oracles [] in
  let m := meta_new counts in
  try index <- map_r (second_pass_one m) first;
  Ok (m, index).

(** collect_committed_witnesses (commit.rs 88-111): [witness id] is the lookup in the witness index. *)
Definition collect_committed_witnesses {W} (m : commit_meta) (index : list (option nat)) (witness : nat -> res W) : res (list W) :=
  try slots <- fold_left (fun acc id => try slots <- acc;
      match nth id index None with
      | None => Ok slots
      | Some k => try w <- witness id; if k <? length slots then Ok (upd slots k (Some w)) else Panic
      end) (seq 0 (length index)) (Ok (repeat None (total_multilins m)));
  map_r of_opt slots.

Section Descs.
  Variable F : field.
  (** PIOPSumcheckClaim (verify.rs 104-116). *)
  Record piop_claim := mkPiopClaim { pc_n_vars : nat; pc_committed : nat; pc_transparent : nat; pc_sum : F }.
  (** One composite sum: the product of the multilinears at two indices, of [n] (IndexComposition over BivariateProduct). *)
  Record product_sum := mkProductSum { ps_n : nat; ps_left : nat; ps_right : nat; ps_sum : F }.
  (** SumcheckClaimDesc (verify.rs 172-177); ranges are half open. *)
  Record claim_desc := mkDesc { c_lo : nat; c_hi : nat; t_lo : nat; t_hi : nat; sums : list product_sum }.
  Definition default_desc : claim_desc := mkDesc 0 0 0 0 [].

  (** Lines 208-216: committed ranges. *)
  Fixpoint set_committed (counts : list nat) (last : nat) (ds : list claim_desc) : list claim_desc :=
    match counts, ds with
    | n :: counts, d :: ds => mkDesc last (last + n) (t_lo d) (t_hi d) (sums d) :: set_committed counts (last + n) ds
    | _, _ => ds
    end.

  (** Lines 220-236: one transparent. *)
  Definition transparent_step (st : res (nat * list claim_desc)) (t : nat) : res (nat * list claim_desc) :=
    try (current, ds) <- st;
    try (current, ds) <-
      (if t <? current then Err
       else if current <? t then
         try d <- of_opt (nth_error ds current);
         let offset := t_hi d in
         try next <- of_opt (nth_error ds t);
         Ok (t, upd ds t (mkDesc (c_lo next) (c_hi next) offset offset (sums next)))
       else Ok (current, ds));
    try d <- of_opt (nth_error ds current);
    Ok (current, upd ds current (mkDesc (c_lo d) (c_hi d) (t_lo d) (t_hi d + 1) (sums d))).

  (** IndexComposition::new (composition/index.rs) on two indices, [expect]ed. *)
  Definition index_composition (n left right : nat) (sum : F) : res product_sum :=
    if (n <=? left) || (n <=? right) then Panic else Ok (mkProductSum n left right sum).

  (** Lines 241-267: one claim. *)
  Definition claim_step (st : res (list claim_desc)) (c : piop_claim) : res (list claim_desc) :=
    try ds <- st;
    try d <- of_opt (nth_error ds (pc_n_vars c));
    if negb ((c_lo d <=? pc_committed c) && (pc_committed c <? c_hi d)) then Err
    else if negb ((t_lo d <=? pc_transparent c) && (pc_transparent c <? t_hi d)) then Err
    else
      let n_c := c_hi d - c_lo d in
      let n_t := t_hi d - t_lo d in
      try ps <- index_composition (n_c + n_t) (pc_committed c - c_lo d) (n_c + pc_transparent c - t_lo d) (pc_sum c);
      Ok (upd ds (pc_n_vars c) (mkDesc (c_lo d) (c_hi d) (t_lo d) (t_hi d) (sums d ++ [ps]))).

  (** make_sumcheck_claim_descs (verify.rs 189-270). *)
  Definition make_sumcheck_claim_descs (m : commit_meta) (transparents : list nat) (claims : list piop_claim) : res (list claim_desc) :=
    let ds := repeat default_desc (max_n_vars m + 1) in
    let ds := set_committed (n_multilins_by_vars m) 0 ds in
    try (_, ds) <- fold_left transparent_step transparents (Ok (0, ds));
    fold_left claim_step claims (Ok ds).
End Descs.
