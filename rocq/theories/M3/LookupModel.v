(** Model of the lookup gadgets: crates/m3/src/gadgets/lookup.rs, gadgets/indexed_lookup/{and,incr}.rs and
    builder/indexed_lookup.rs, on the table builder of CompileModel.v.

    Simplifications: the 8-bit limbs of the code ([B8]) are the tower level [b], of [2^b] bits, so that the code is [b = 3]
    and [L = 7]; [W] below is the number of bits of a limb.  The contents of a witness column are the function from rows (and
    positions in the cell) to values of CompileSpec.v; the segments in which tables are filled are left out. *)
Require Import Coq.Arith.PeanoNat Coq.NArith.NArith Coq.Lists.List Coq.Bool.Bool.
From Verif Require Import Base.Fld Base.Lists Base.Sums Math.ArithModel Field.TowerModel Field.TowerProofs Cs.ChannelModel Cs.FlushModel
  M3.CompileModel.
Import ListNotations.
Local Close Scope N_scope.
Local Open Scope nat_scope.

Section Model.
  Variable L : nat.
  Notation F := (TF L).
  Notation tbl := (tbl L).

  (* ------------------------------------------------------------------ *)
  (** * lookup.rs *)

  (** lines 31-33: the multiplicity columns *)
  Fixpoint add_multiplicity_bits (t : tbl) (n : nat) : list hcol * tbl :=
    match n with
    | O => ([], t)
    | S n => let '(h, t) := add_committed L t 0 0 in let '(hs, t) := add_multiplicity_bits t n in (h :: hs, t)
    end.
  (** lines 35-44; the multiplicity [1 << i] is a [u32]: without overflow checks the shift amount wraps *)
  Definition multiplicity (i : nat) : N := N.shiftl 1 (N.of_nat (i mod 32)).
  Fixpoint push_bits (t : tbl) (chan : nat) (cols : list hcol) (i : nat) (bits : list hcol) : res tbl :=
    match bits with
    | [] => Ok t
    | b :: bits => try t' <- flush_with_opts L t Push chan cols (multiplicity i) [b]; push_bits t' chan cols (S i) bits
    end.
  (** lines 21-47 LookupProducer::new *)
  Definition lookup_producer_new (t : tbl) (chan : nat) (cols : list hcol) (n : nat) : res (list hcol * tbl) :=
    let '(bits, t) := add_multiplicity_bits t n in
    try t <- push_bits t chan cols 0 bits;
    Ok (bits, t).
  (** lines 54-87 LookupProducer::populate: the value of bit [j] of row [r]; rows without a count and the columns beyond the
      32 bits of a count keep the zeros of a new witness *)
  Definition populate_bits (n : nat) (counts : list N) : res (nat -> nat -> bool) :=
    if (n <? 32) && existsb (fun c => N.leb (N.shiftl 1 (N.of_nat n)) c) counts then Err
    else Ok (fun j r => (j <? 32) && N.testbit (nth r counts 0%N) (N.of_nat j)).

  (* ------------------------------------------------------------------ *)
  (** * Indexed tables: and.rs and incr.rs *)

  (** field extension.rs [ext_basis::<_, FSub>(i)] for a subfield of level [lo] *)
  Definition ext_basis (lo i : nat) : F := dec L (N.shiftl 1 (N.of_nat i * nbits lo)).
  (** [B128::from(1 << i)], [B32::new(1 << i)] *)
  Definition bit_const (i : nat) : circuit F := cconst (dec L (N.shiftl 1 (N.of_nat i))).

  (** and.rs lines 26-32 and 143-168: BitAndLookup and its [new]; incr.rs lines 161-200: IncrLookup; the two are the same
      but for the circuit and the size *)
  Record table_lookup := mkTl { tl_ordered : hcol; tl_sorted : hcol; tl_bits : list hcol }.
  Definition table_lookup_new (t : tbl) (log_size level : nat) (c : circuit F) (chan permutation_chan n : nat) : res (table_lookup * tbl) :=
    try t <- require_fixed_size L t log_size;
    try ht <- add_fixed L t level c;
    let '(ordered, t) := ht in
    let '(sorted, t) := add_committed L t level 0 in
    try t <- flush_with_opts L t Push permutation_chan [ordered] 1 [];
    try t <- flush_with_opts L t Pull permutation_chan [sorted] 1 [];
    try bt <- lookup_producer_new t chan [sorted] n;
    let '(bits, t) := bt in
    Ok (mkTl ordered sorted bits, t).

  (** builder/indexed_lookup.rs lines 24-33 IndexedLookup *)
  Record indexed := mkIl { il_log_size : nat; il_entry_to_index : list F -> nat; il_index_to_entry : nat -> list F }.
  (** and.rs lines 248-275, incr.rs lines 212-238: [fill] of the entries; the value of row [r] *)
  Definition fill_ordered (il : indexed) (r : nat) : F := nth 0 (il_index_to_entry il r) f0.
  Definition fill_sorted (il : indexed) (rows : list (nat * N)) (r : nat) : F :=
    match nth_error rows r with Some (index, _) => nth 0 (il_index_to_entry il index) f0 | None => f0 end.

  Section Limbs.
    Variable b : nat.
    Notation W := (2 ^ b).
    Notation "x |' y" := (N.lor x y) (at level 50, left associativity).
    Notation "x <<' n" := (N.shiftl x (N.of_nat n)) (at level 40, left associativity).

    (** ** and.rs *)
    (** lines 114-117 merge_bitand_vals *)
    Definition merge_bitand_vals (in_a in_b output : N) : N := in_a |' (in_b <<' W) |' (output <<' (2 * W)).
    (** lines 99-112 merge_and_columns *)
    Definition merge_and_columns (t : tbl) (lv : nat) (in_a in_b output : hcol) : res (hcol * tbl) :=
      try e <- ex_op L cadd (col_expr L in_a) (ex_const_op L cmul (col_expr L in_b) (ext_basis b 1));
      try e <- ex_op L cadd e (ex_const_op L cmul (col_expr L output) (ext_basis b 2));
      add_computed L t (b + 2) lv e.
    (** lines 34-72: BitAnd and its [new] *)
    Record bit_and := mkAnd { an_a : hcol; an_b : hcol; an_output : hcol; an_merged : hcol }.
    Definition bit_and_new (t : tbl) (lv chan : nat) (in_a in_b : hcol) : res (bit_and * tbl) :=
      let '(output, t) := add_committed L t b lv in
      try mt <- merge_and_columns t lv in_a in_b output;
      let '(merged, t) := mt in
      try t <- read L t lv chan [merged];
      Ok (mkAnd in_a in_b output merged, t).
    (** lines 79-97 BitAnd::populate: the output and merged values at position [i] of the columns of a segment with [size]
        rows; only the first [size] positions are written *)
    Definition bit_and_populate (size : nat) (in_a in_b : nat -> N) (i : nat) : N * N :=
      if i <? size then let output := N.land (in_a i) (in_b i) in (output, merge_bitand_vals (in_a i) (in_b i) output) else (0%N, 0%N).
    (** lines 120-133 bitand_circuit *)
    Definition bitand_circuit : circuit F :=
      csum (flat_map (fun i => [cmul (cvar i) (bit_const i); cmul (cvar (i + W)) (bit_const (i + W));
                                cmul (cmul (cvar i) (cvar (i + W))) (bit_const (i + 2 * W))]) (seq 0 W)).
    (** lines 143-168 *)
    Definition bitand_lookup_new (t : tbl) (chan permutation_chan n : nat) : res (table_lookup * tbl) :=
      table_lookup_new t (2 * W) (b + 2) bitand_circuit chan permutation_chan n.
    (** lines 213-238 BitAndIndexedLookup *)
    Definition bitand_entry_to_index (entry : list F) : nat :=
      N.to_nat (N.land (enc L (nth 0 entry f0)) (N.ones (N.of_nat (2 * W)))).
    Definition bitand_index_to_entry (index : nat) : list F :=
      let in_a := N.land (N.of_nat index) (N.ones (N.of_nat W)) in
      let in_b := N.land (N.shiftr (N.of_nat index) (N.of_nat W)) (N.ones (N.of_nat W)) in
      [dec L (merge_bitand_vals in_a in_b (N.land in_a in_b))].
    Definition bitand_indexed : indexed := mkIl (2 * W) bitand_entry_to_index bitand_index_to_entry.

    (** ** incr.rs *)
    (** lines 321-323 merge_incr_vals *)
    Definition merge_incr_vals (input : N) (carry_in : bool) (output : N) (carry_out : bool) : N :=
      (N.b2n carry_out <<' (2 * W + 1)) |' (N.b2n carry_in <<' (2 * W)) |' (output <<' W) |' input.
    (** lines 301-318 merge_incr_cols *)
    Definition merge_incr_cols (t : tbl) (input carry_in output carry_out : hcol) : res (hcol * tbl) :=
      let beta_1 := ext_basis b 1 in
      let beta_2_0 := ext_basis b 2 in
      let beta_2_1 := fmul beta_2_0 (ext_basis 0 1) in
      try e <- ex_op L cadd (col_expr L input) (ex_const_op L cmul (col_expr L output) beta_1);
      try e <- ex_op L cadd e (ex_const_op L cmul (col_expr L carry_in) beta_2_0);
      try e <- ex_op L cadd e (ex_const_op L cmul (col_expr L carry_out) beta_2_1);
      add_computed L t (b + 2) 0 e.
    (** lines 35-73: Incr and its [new] *)
    Record incr := mkIncr { in_input : hcol; in_carry_in : hcol; in_output : hcol; in_carry_out : hcol; in_merged : hcol }.
    Definition incr_new (t : tbl) (chan : nat) (input carry_in : hcol) : res (incr * tbl) :=
      let '(output, t) := add_committed L t b 0 in
      let '(carry_out, t) := add_committed L t 0 0 in
      try mt <- merge_incr_cols t input carry_in output carry_out;
      let '(merged, t) := mt in
      try t <- flush_with_opts L t Pull chan [merged] 1 [];
      Ok (mkIncr input carry_in output carry_out merged, t).
    (** [u8::overflowing_add] *)
    Definition overflowing_add (x y : N) : N * bool :=
      let s := (x + y)%N in (N.land s (N.ones (N.of_nat W)), N.leb (2 ^ N.of_nat W) s).
    (** lines 272-280 carry_in_circuit *)
    Definition carry_in_circuit (i : nat) : circuit F := fold_left cmul (map cvar (seq 0 i)) (cvar W).
    (** lines 284-298 incr_circuit *)
    Definition incr_circuit : circuit F :=
      csum (flat_map (fun i => [cmul (cvar i) (bit_const i); cmul (cadd (cvar i) (carry_in_circuit i)) (bit_const (i + W))]) (seq 0 W) ++
            [cmul (cvar W) (bit_const (2 * W)); cmul (carry_in_circuit W) (bit_const (2 * W + 1))]).
    (** lines 176-200 *)
    Definition incr_lookup_new (t : tbl) (chan permutation_chan n : nat) : res (table_lookup * tbl) :=
      table_lookup_new t (W + 1) (b + 2) incr_circuit chan permutation_chan n.
    (** lines 241-268 IncrIndexedLookup *)
    Definition incr_entry_to_index (entry : list F) : nat :=
      let merged_val := enc L (nth 0 entry f0) in
      let input := N.land merged_val (N.ones (N.of_nat W)) in
      let carry_in_bit := N.testbit merged_val (N.of_nat (2 * W)) in
      N.to_nat ((N.b2n carry_in_bit <<' W) |' input).
    Definition incr_index_to_entry (index : nat) : list F :=
      let input := (N.of_nat index mod (1 <<' W))%N in
      let carry_in_bit := N.testbit (N.of_nat index) (N.of_nat W) in
      let '(output, carry_out_bit) := overflowing_add input (N.b2n carry_in_bit) in
      [dec L (merge_incr_vals input carry_in_bit output carry_out_bit)].
    Definition incr_indexed : indexed := mkIl (W + 1) incr_entry_to_index incr_index_to_entry.
    (** lines 82-109 Incr::populate: output, carry out and merged value of a row *)
    Definition incr_populate (input : N) (carry_in : bool) : N * bool * N :=
      let '(output, carry_out) := overflowing_add input (N.b2n carry_in) in
      (output, carry_out, (N.b2n carry_out <<' (2 * W + 1)) |' (N.b2n carry_in <<' (2 * W)) |' (output <<' W) |' input).
  End Limbs.

  (* ------------------------------------------------------------------ *)
  (** * builder/indexed_lookup.rs, lines 51-117 *)

  (** [counts[index] += 1] on a [Vec<u32>]: an index out of range panics; the sum wraps without overflow checks *)
  Definition bump (counts : list N) (index : nat) : res (list N) :=
    match nth_error counts index with Some c => Ok (upd counts index ((c + 1) mod 2 ^ 32)%N) | None => Panic end.
  Fixpoint bump_all (counts : list N) (indices : list nat) : res (list N) :=
    match indices with [] => Ok counts | i :: l => try c <- bump counts i; bump_all c l end.
  Definition is_pull (d : direction) : bool := match d with Pull => true | Push => false end.
  (** lines 77-101: one flush of a table with [size] rows and cells of [2^lv] values *)
  Definition tally_flush (il : indexed) (w : cid -> nat -> nat -> F) (chan size lv : nat) (counts : list N) (f : tflush) : res (list N) :=
    if (tf_channel f =? chan) && is_pull (tf_dir f) then
      match tf_sels f with
      | _ :: _ => Panic
      | [] => bump_all counts (map (fun i => il_entry_to_index il (map (fun k => w k (i / 2 ^ lv) (i mod 2 ^ lv)) (tf_cols f))) (seq 0 (size * 2 ^ lv)))
      end
    else Ok counts.
  Fixpoint tally_flushes (il : indexed) (w : cid -> nat -> nat -> F) (chan size lv : nat) (counts : list N) (fs : list tflush) : res (list N) :=
    match fs with [] => Ok counts | f :: fs => try c <- tally_flush il w chan size lv counts f; tally_flushes il w chan size lv c fs end.
  Fixpoint tally_parts (il : indexed) (w : cid -> nat -> nat -> F) (chan size : nat) (counts : list N) (ps : list (part L)) : res (list N) :=
    match ps with [] => Ok counts | p :: ps => try c <- tally_flushes il w chan size (p_lv L p) counts (p_flushes L p); tally_parts il w chan size c ps end.
  (** lines 71-106; a table of size zero has no witness *)
  Fixpoint tally_tables (il : indexed) (w : cid -> nat -> nat -> F) (chan : nat) (sizes : list nat) (counts : list N) (ts : list tbl) : res (list N) :=
    match ts with
    | [] => Ok counts
    | t :: ts =>
        let size := nth (t_id L t) sizes 0 in
        try c <- (if size =? 0 then Ok counts else tally_parts il w chan size counts (parts_list L t));
        tally_tables il w chan sizes c ts
    end.
  Definition tally (il : indexed) (w : cid -> nat -> nat -> F) (chan : nat) (ts : list tbl) (sizes : list nat) (bs : list (boundary F)) : res (list N) :=
    try counts <- tally_tables il w chan sizes (repeat 0%N (2 ^ il_log_size il)) ts;
    bump_all counts (map (fun b => il_entry_to_index il (bd_values F b)) (filter (fun b => (bd_channel F b =? chan) && is_pull (bd_dir F b)) bs)).
End Model.
