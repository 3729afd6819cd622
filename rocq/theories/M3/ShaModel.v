(** C84: the SHA-256 compression gadget: m3/src/gadgets/hash/sha256.rs.
    One row of the table; a column of bits is the function from the position in the row to the bit (32 positions, or 2048 for the message schedule), as in KeccakModel. *)
Require Import Coq.NArith.NArith Coq.Arith.Arith Coq.Lists.List Coq.Bool.Bool.
From Verif Require Import M3.KeccakModel.
Import ListNotations.
Local Close Scope N_scope.
Local Open Scope nat_scope.

(** lines 44-53 *)
Definition ROUND_CONSTS_K : list N := [
  0x428a2f98; 0x71374491; 0xb5c0fbcf; 0xe9b5dba5; 0x3956c25b; 0x59f111f1; 0x923f82a4; 0xab1c5ed5;
  0xd807aa98; 0x12835b01; 0x243185be; 0x550c7dc3; 0x72be5d74; 0x80deb1fe; 0x9bdc06a7; 0xc19bf174;
  0xe49b69c1; 0xefbe4786; 0x0fc19dc6; 0x240ca1cc; 0x2de92c6f; 0x4a7484aa; 0x5cb0a9dc; 0x76f988da;
  0x983e5152; 0xa831c66d; 0xb00327c8; 0xbf597fc7; 0xc6e00bf3; 0xd5a79147; 0x06ca6351; 0x14292967;
  0x27b70a85; 0x2e1b2138; 0x4d2c6dfc; 0x53380d13; 0x650a7354; 0x766a0abb; 0x81c2c92e; 0x92722c85;
  0xa2bfe8a1; 0xa81a664b; 0xc24b8b70; 0xc76c51a3; 0xd192e819; 0xd6990624; 0xf40e3585; 0x106aa070;
  0x19a4c116; 0x1e376c08; 0x2748774c; 0x34b0bcb5; 0x391c0cb3; 0x4ed8aa4a; 0x5b9cca4f; 0x682e6ff3;
  0x748f82ee; 0x78a5636f; 0x84c87814; 0x8cc70208; 0x90befffa; 0xa4506ceb; 0xbef9a3f7; 0xc67178f2]%N.
(** lines 86-88 *)
Definition INIT : list N := [0x6a09e667; 0xbb67ae85; 0x3c6ef372; 0xa54ff53a; 0x510e527f; 0x9b05688c; 0x1f83d9ab; 0x5be0cd19]%N.
(** lines 56-64 u32_to_b1_bits_le, as a constant column *)
Definition const32 (v : N) : col := fun p => N.testbit v (N.of_nat p).

(** add_shifted with LogicalRight and LogicalLeft *)
Definition shr (block_bits k : nat) (a : col) : col := fun p => if p mod 2 ^ block_bits + k <? 2 ^ block_bits then a (p + k) else false.
Definition shl (block_bits k : nat) (a : col) : col := fun p => if k <=? p mod 2 ^ block_bits then a (p - k) else false.
(** add_selected_block of 32 bits *)
Definition block32 (i : nat) (a : col) : col := fun p => a (32 * i + p).

(** lines 580-595, 652-670, 726-743, 799-816 *)
Definition sigma0 (a : col) : col := plus (plus (rotated 5 (32 - 7) a) (rotated 5 (32 - 18) a)) (shr 5 3 a).
Definition sigma1 (a : col) : col := plus (plus (rotated 5 (32 - 17) a) (rotated 5 (32 - 19) a)) (shr 5 10 a).
Definition bigsigma0 (a : col) : col := plus (plus (rotated 5 (32 - 2) a) (rotated 5 (32 - 13) a)) (rotated 5 (32 - 22) a).
Definition bigsigma1 (a : col) : col := plus (plus (rotated 5 (32 - 6) a) (rotated 5 (32 - 11) a)) (rotated 5 (32 - 25) a).

(** U32Add and U32AddStacked (add.rs 52-92, 188-221), no carry in: the carry constraint on a column of [n] words, and the sum *)
Definition carry_in (cout : col) : col := shl 5 1 cout.
Definition carry_zero (x y cout : col) : col := plus (plus (times (plus x (carry_in cout)) (plus y (carry_in cout))) (carry_in cout)) cout.
Definition sum_col (x y cout : col) : col := plus (plus x y) (carry_in cout).
Definition zero_on (n : nat) (c : col) : Prop := forall p, p < n -> c p = false.
(** ADD_FLAGS (lines 396-400): the sum [z] is committed *)
Definition add_holds (x y cout z : col) : Prop := zero_on 32 (carry_zero x y cout) /\ zero_on 32 (plus (sum_col x y cout) z).
(** U32AddStacked with commit_zout false *)
Definition stacked_holds (x y cout : col) : Prop := zero_on 2048 (carry_zero x y cout).

(** lines 402-515 (next_round and first_round): the committed columns of a round, carries and sums of the seven additions *)
Record round_cols := mkRC { r_ch : col; r_maj : col; r_cout : nat -> col; r_sum : nat -> col }.
Record vars := mkVars { va : col; vb : col; vc : col; vd : col; ve : col; vf : col; vg : col; vh : col }.
Definition round_holds (v : vars) (k w : col) (r : round_cols) : Prop :=
  zero_on 32 (plus (plus (r_ch r) (vg v)) (times (ve v) (plus (vf v) (vg v)))) /\
  zero_on 32 (plus (r_maj r) (plus (times (va v) (plus (vb v) (vc v))) (times (vb v) (vc v)))) /\
  add_holds (bigsigma1 (ve v)) (r_ch r) (r_cout r 0) (r_sum r 0) /\
  add_holds k w (r_cout r 1) (r_sum r 1) /\
  add_holds (r_sum r 0) (r_sum r 1) (r_cout r 2) (r_sum r 2) /\
  add_holds (vh v) (r_sum r 2) (r_cout r 3) (r_sum r 3) /\
  add_holds (bigsigma0 (va v)) (r_maj r) (r_cout r 4) (r_sum r 4) /\
  add_holds (r_sum r 3) (r_sum r 4) (r_cout r 5) (r_sum r 5) /\
  add_holds (vd v) (r_sum r 3) (r_cout r 6) (r_sum r 6).
Definition next_vars (v : vars) (r : round_cols) : vars := mkVars (r_sum r 5) (va v) (vb v) (vc v) (r_sum r 6) (ve v) (vf v) (vg v).

(** lines 187-275 Sha256::new; the selector, lines 873-881 *)
Definition selector : col := fun p => p <? 32 * 48.
Record sha_cols := mkSha { sh_w : col; sh_c0 : col; sh_c1 : col; sh_c3 : col; sh_round : nat -> round_cols; sh_fcout : nat -> col; sh_fsum : nat -> col }.
Definition w_minus_16 (w : col) : col := shr 11 (32 * 16) w.
Definition w_minus_7 (w : col) : col := shr 11 (32 * (16 - 7)) w.
Definition sigma0_minus_15 (w : col) : col := shr 11 32 (sigma0 w).
Definition sigma1_minus_2 (w : col) : col := shr 11 (32 * (16 - 2)) (sigma1 w).
Definition initial_vars : vars := let i n := const32 (nth n INIT 0%N) in mkVars (i 0) (i 1) (i 2) (i 3) (i 4) (i 5) (i 6) (i 7).
(** the variables before round [n] *)
Fixpoint vars_at (s : sha_cols) (n : nat) : vars := match n with O => initial_vars | S n => next_vars (vars_at s n) (sh_round s n) end.
Definition vars_list (v : vars) : list col := [va v; vb v; vc v; vd v; ve v; vf v; vg v; vh v].
Definition sha_holds (s : sha_cols) : Prop :=
  let w := sh_w s in
  stacked_holds w (w_minus_7 w) (sh_c0 s) /\ stacked_holds (sigma0_minus_15 w) (sigma1_minus_2 w) (sh_c1 s) /\
  let s0 := sum_col w (w_minus_7 w) (sh_c0 s) in let s1 := sum_col (sigma0_minus_15 w) (sigma1_minus_2 w) (sh_c1 s) in
  stacked_holds s0 s1 (sh_c3 s) /\
  zero_on 2048 (times selector (plus (sum_col s0 s1 (sh_c3 s)) (w_minus_16 w))) /\
  (forall i, i < 64 -> round_holds (vars_at s i) (const32 (nth i ROUND_CONSTS_K 0%N)) (block32 i w) (sh_round s i)) /\
  (forall i, i < 8 -> add_holds (nth i (vars_list (vars_at s 64)) zero) (nth i (vars_list initial_vars) zero) (sh_fcout s i) (sh_fsum s i)).
(** state_in and state_out *)
Definition sh_in (s : sha_cols) (i : nat) : col := block32 i (sh_w s).
Definition sh_out (s : sha_cols) (i : nat) : col := sh_fsum s i.
(** the value of a column of 32 bits *)
Definition word (c : col) : N := bits_value c 32.
