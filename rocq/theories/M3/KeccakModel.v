(** C83: the Keccak-f[1600] gadget with stacked columns: m3/src/gadgets/hash/keccak/{mod,state,trace,stacked}.rs.
    A 64-bit lane is a number below [2^64].  A column of bits is the function from the position in a row (512 positions, 8 tracks of 64) to the bit;
    adding, multiplying and shifting columns is what the table builder makes of [add_computed], [add_shifted], [add_packed], [add_selected] and [assert_zero] (C78). *)
Require Import Coq.NArith.NArith Coq.Arith.Arith Coq.Lists.List Coq.Bool.Bool.
Import ListNotations.
Local Close Scope N_scope.
Local Open Scope nat_scope.

(** * state.rs *)
(** lines 22-31 *)
Definition from_fn {A} (f : nat -> nat -> A) : list A := map (fun i => f (i mod 5) (i / 5)) (seq 0 25).
(** lines 56-63 and 65-71 *)
Definition mget {A} (d : A) (m : list A) (x y : nat) : A := nth (x mod 5 + y mod 5 * 5) m d.
Fixpoint set_nth {A} (l : list A) (i : nat) (v : A) : list A :=
  match l, i with [], _ => [] | _ :: l, O => v :: l | a :: l, S i => a :: set_nth l i v end.
Definition mset {A} (m : list A) (x y : nat) (v : A) : list A := set_nth m (x mod 5 + y mod 5 * 5) v.
(** lines 105-130 *)
Definition row_fn {A} (f : nat -> A) : list A := map f (seq 0 5).
Definition rget {A} (d : A) (r : list A) (x : nat) : A := nth (x mod 5) r d.

(** * mod.rs *)
(** lines 16-22 *)
Definition RHO : list (list nat) := [[0; 36; 3; 41; 18]; [1; 44; 10; 45; 2]; [62; 6; 43; 15; 61]; [28; 55; 25; 21; 56]; [27; 20; 39; 8; 14]].
Definition rho (x y : nat) : nat := nth y (nth x RHO []) 0.
(** lines 25-50 *)
Definition RC : list N := [
  0x0000000000000001; 0x0000000000008082; 0x800000000000808A; 0x8000000080008000; 0x000000000000808B; 0x0000000080000001;
  0x8000000080008081; 0x8000000000008009; 0x000000000000008A; 0x0000000000000088; 0x0000000080008009; 0x000000008000000A;
  0x000000008000808B; 0x800000000000008B; 0x8000000000008089; 0x8000000000008003; 0x8000000000008002; 0x8000000000000080;
  0x000000000000800A; 0x800000008000000A; 0x8000000080008081; 0x8000000000008080; 0x0000000080000001; 0x8000000080008008]%N.

(** * trace.rs *)
(** [u64::rotate_left] and [!] *)
Definition rotl (v : N) (k : nat) : N := N.lor (N.land (N.shiftl v (N.of_nat k)) (N.ones 64)) (N.shiftr v (N.of_nat (64 - k))).
Definition not64 (v : N) : N := N.lxor v (N.ones 64).
(** lines 12-20 *)
Record round_trace := mkRound { rt_in : list N; rt_out : list N; rt_c : list N; rt_d : list N; rt_theta : list N; rt_b : list N; rt_rc : N }.
(** lines 24-74 *)
Definition gather (state : list N) (round : nat) : round_trace :=
  let s := mget 0%N state in
  let c := row_fn (fun x => N.lxor (N.lxor (N.lxor (N.lxor (s x 0) (s x 1)) (s x 2)) (s x 3)) (s x 4)) in
  let d := row_fn (fun x => N.lxor (rget 0%N c (x + 4)) (rotl (rget 0%N c (x + 1)) 1)) in
  let xys := flat_map (fun x => map (pair x) (seq 0 5)) (seq 0 5) in
  let theta := fold_left (fun a xy => mset a (fst xy) (snd xy) (N.lxor (s (fst xy) (snd xy)) (rget 0%N d (fst xy)))) xys (repeat 0%N 25) in
  let b := fold_left (fun b xy => mset b (snd xy) (2 * fst xy + 3 * snd xy) (rotl (mget 0%N theta (fst xy) (snd xy)) (rho (fst xy) (snd xy)))) xys (repeat 0%N 25) in
  let rc := nth round RC 0%N in
  let bg := mget 0%N b in
  let out := from_fn (fun x y =>
    let chi := N.lxor (bg x y) (N.land (not64 (bg (x + 1) y)) (bg (x + 2) y)) in
    if (x =? 0) && (y =? 0) then N.lxor chi rc else chi) in
  mkRound state out c d theta b rc.
(** lines 103-111 *)
Fixpoint traces (state : list N) (rounds : list nat) : list round_trace :=
  match rounds with [] => [] | r :: rounds => let t := gather state r in t :: traces (rt_out t) rounds end.
Definition keccakf_trace (state : list N) : list round_trace := traces state (seq 0 24).
Definition no_trace : round_trace := mkRound [] [] [] [] [] [] 0%N.
(** lines 84-91 *)
Definition pt_input (ts : list round_trace) : list N := rt_in (nth 0 ts no_trace).
Definition pt_output (ts : list round_trace) : list N := rt_out (nth (24 - 1) ts no_trace).

(** * stacked.rs *)
(** one row of a column of bits *)
Definition col := nat -> bool.
Definition zero : col := fun _ => false.
Definition plus (a b : col) : col := fun p => xorb (a p) (b p).
Definition times (a b : col) : col := fun p => a p && b p.
(** add_shifted with CircularLeft *)
Definition rotated (block_bits offset : nat) (a : col) : col :=
  fun p => let len := 2 ^ block_bits in a (p - p mod len + (p mod len + (len - offset)) mod len).
(** lines 513-523 *)
Definition sum_expr (l : list col) : col := match l with [] => zero | a :: l => fold_left plus l a end.
(** lines 542-546 *)
Definition nth_round_per_batch (batch_no nth : nat) : nat := nth * 3 + batch_no.
(** lines 528-539 *)
Definition round_consts (batch_no : nat) : col := fun p => N.testbit (nth (nth_round_per_batch batch_no (p / 64)) RC 0%N) (N.of_nat (p mod 64)).

(** lines 289-379: the columns of a batch and its constraints (columns that must be zero) *)
Record batch := mkBatch { ba_c : list col; ba_c_shift : list col; ba_d : list col; ba_theta : list col; ba_b : list col; ba_zero : list col }.
Definition round_batch (sin sout : list col) (batch_no : nat) : batch :=
  let s := mget zero sin in
  let c := row_fn (fun x => sum_expr (map (s x) (seq 0 5))) in
  let c_shift := row_fn (fun x => rotated 6 1 (rget zero c x)) in
  let d := row_fn (fun x => plus (rget zero c (x + 4)) (rget zero c_shift (x + 1))) in
  let theta := from_fn (fun x y => plus (s x y) (rget zero d x)) in
  let b := from_fn (fun x y =>
    if (x =? 0) && (y =? 0) then mget zero theta 0 0
    else let dy := x in let tmp := (y + 2 * x) mod 5 in let dx := (3 * tmp) mod 5 in
         rotated 6 (rho dx dy) (mget zero theta dx dy)) in
  let rc := round_consts batch_no in
  let bg := mget zero b in
  let zs := flat_map (fun x => map (fun y =>
    let chi := plus (bg x y) (times (plus (bg (x + 1) y) (fun _ => true)) (bg (x + 2) y)) in
    plus (mget zero sout x y) (if (x =? 0) && (y =? 0) then plus rc chi else chi)) (seq 0 5)) (seq 0 5) in
  mkBatch c c_shift d theta b zs.

(** add_packed from 64 bits: the value of track [t] *)
Fixpoint bits_value (g : nat -> bool) (k : nat) : N := match k with O => 0%N | S k => N.lor (bits_value g k) (if g k then N.shiftl 1 (N.of_nat k) else 0%N) end.
Definition packed (c : col) (t : nat) : N := bits_value (fun j => c (64 * t + j)) 64.
(** lines 103-168: [sin] the committed input columns, [o0], [o1], [o2] those of the three batches *)
Definition link_sel (t : nat) : bool := t <? 7.
(** LogicalRight by one within 8 tracks *)
Definition next_in (sin : list col) (x y t : nat) : N := if t + 1 <? 8 then packed (mget zero sin x y) (t + 1) else 0%N.
Definition link (sin o2 : list col) (x y t : nat) : N :=
  if link_sel t then N.lxor (packed (mget zero o2 x y) t) (next_in sin x y t) else 0%N.
Definition kf_input (sin : list col) : list N := from_fn (fun x y => packed (mget zero sin x y) 0).
Definition kf_output (o2 : list col) : list N := from_fn (fun x y => packed (mget zero o2 x y) 7).
(** the constraints hold on the row *)
Definition all_zero (l : list col) : Prop := forall c p, In c l -> p < 512 -> c p = false.
Definition kf_holds (sin o0 o1 o2 : list col) : Prop :=
  all_zero (ba_zero (round_batch sin o0 0)) /\ all_zero (ba_zero (round_batch o0 o1 1)) /\ all_zero (ba_zero (round_batch o1 o2 2)) /\
  forall x y t, x < 5 -> y < 5 -> t < 8 -> link sin o2 x y t = 0%N.

(** lines 381-448, with 548-568 and the writes of 185-231: what populate writes, from the lanes of each track *)
Definition of_lanes (f : nat -> N) : col := fun p => N.testbit (f (p / 64)) (N.of_nat (p mod 64)).
Definition lens (ts : list round_trace) (batch_no t : nat) : round_trace := nth (nth_round_per_batch batch_no t) ts no_trace.
Definition pop_in (ts : list round_trace) (batch_no : nat) : list col := from_fn (fun x y => of_lanes (fun t => mget 0%N (rt_in (lens ts batch_no t)) x y)).
Definition pop_out (ts : list round_trace) (batch_no : nat) : list col := from_fn (fun x y => of_lanes (fun t => mget 0%N (rt_out (lens ts batch_no t)) x y)).
Definition pop_theta (ts : list round_trace) (batch_no : nat) : list col := from_fn (fun x y => of_lanes (fun t => mget 0%N (rt_theta (lens ts batch_no t)) x y)).
Definition pop_b (ts : list round_trace) (batch_no : nat) : list col := from_fn (fun x y => of_lanes (fun t => mget 0%N (rt_b (lens ts batch_no t)) x y)).
Definition pop_c (ts : list round_trace) (batch_no : nat) : list col := row_fn (fun x => of_lanes (fun t => rget 0%N (rt_c (lens ts batch_no t)) x)).
Definition pop_c_shift (ts : list round_trace) (batch_no : nat) : list col := row_fn (fun x => of_lanes (fun t => rotl (rget 0%N (rt_c (lens ts batch_no t)) x) 1)).
Definition pop_d (ts : list round_trace) (batch_no : nat) : list col := row_fn (fun x => of_lanes (fun t => rget 0%N (rt_d (lens ts batch_no t)) x)).
Definition pop_rc (ts : list round_trace) (batch_no : nat) : col := of_lanes (fun t => rt_rc (lens ts batch_no t)).
(** track 7 is left at zero *)
Definition pop_next (ts : list round_trace) (x y t : nat) : N := if t <? 7 then mget 0%N (rt_in (lens ts 0 (t + 1))) x y else 0%N.

(** * lookedup.rs: conjunctions by lookups of bytes *)
(** add_packed from 8 bits: byte [i] of the row *)
Definition byte (c : col) (i : nat) : N := bits_value (fun j => c (8 * i + j)) 8.
(** indexed_lookup/and.rs, lines 114-117; the sum of multiples of basis elements of lines 99-111 is this number (C80) *)
Definition merged_bytes (a b o : N) : N := N.lor (N.lor a (N.shiftl b 8)) (N.shiftl o 16).
(** lines 363-368: what is read on the lookup channel; [ands] the committed columns *)
Definition lk_read (sin ands : list col) (batch_no x y i : nat) : N :=
  let b := ba_b (round_batch sin [] batch_no) in
  merged_bytes (byte (mget zero b (x + 1) y) i) (byte (mget zero b (x + 2) y) i) (byte (mget zero ands x y) i).
(** lines 374-387 *)
Definition lk_state_out (sin ands : list col) (batch_no : nat) : list col :=
  let b := mget zero (ba_b (round_batch sin [] batch_no)) in
  from_fn (fun x y =>
    if (x =? 0) && (y =? 0) then plus (plus (plus (round_consts batch_no) (b x y)) (b (x + 2) y)) (mget zero ands x y)
    else plus (plus (b x y) (b (x + 2) y)) (mget zero ands x y)).
(** what the lookup enforces of a value read (C80): it is an entry of the table *)
Definition and_entry8 (v : N) : Prop := exists a b, (a < 256)%N /\ (b < 256)%N /\ v = merged_bytes a b (N.land a b).
Definition lk_reads_hold (sin ands : list col) (batch_no : nat) : Prop := forall x y i, x < 5 -> y < 5 -> i < 64 -> and_entry8 (lk_read sin ands batch_no x y i).
(** lines 102-168 *)
Definition lkf_holds (sin a0 a1 a2 : list col) : Prop :=
  let o0 := lk_state_out sin a0 0 in let o1 := lk_state_out o0 a1 1 in let o2 := lk_state_out o1 a2 2 in
  lk_reads_hold sin a0 0 /\ lk_reads_hold o0 a1 1 /\ lk_reads_hold o1 a2 2 /\ forall x y t, x < 5 -> y < 5 -> t < 8 -> link sin o2 x y t = 0%N.
Definition lkf_output (sin a0 a1 a2 : list col) : list N :=
  kf_output (lk_state_out (lk_state_out (lk_state_out sin a0 0) a1 1) a2 2).
(** lines 460-480, from the populated [b] columns *)
Definition lk_pop_and (ts : list round_trace) (batch_no : nat) : list col :=
  from_fn (fun x y => fun p => N.testbit (N.land (byte (mget zero (pop_b ts batch_no) (x + 1) y) (p / 8)) (byte (mget zero (pop_b ts batch_no) (x + 2) y) (p / 8))) (N.of_nat (p mod 8))).
