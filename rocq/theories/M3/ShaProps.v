(** C84: the SHA-256 gadget computes the compression of FIPS 180-4 from the initial state. *)
Require Import Coq.NArith.NArith Coq.Arith.Arith Coq.Lists.List Coq.Bool.Bool Lia.
From Verif Require Import M3.KeccakModel M3.KeccakProps M3.ShaModel.
Import ListNotations.
Local Open Scope nat_scope.
Local Open Scope N_scope.

(** * Specification: FIPS 180-4, on 32-bit words *)
Definition M32 : N := N.ones 32.
Definition add32 (a b : N) : N := (a + b) mod 2 ^ 32.
(** 3.2 *)
Definition SHR (n x : N) : N := N.shiftr x n.
Definition ROTR (n x : N) : N := N.lor (N.shiftr x n) (N.land (N.shiftl x (32 - n)) M32).
(** 4.1.2 *)
Definition Ch (x y z : N) : N := N.lxor (N.land x y) (N.land (N.lxor x M32) z).
Definition Maj (x y z : N) : N := N.lxor (N.lxor (N.land x y) (N.land x z)) (N.land y z).
Definition Sigma0 (x : N) : N := N.lxor (N.lxor (ROTR 2 x) (ROTR 13 x)) (ROTR 22 x).
Definition Sigma1 (x : N) : N := N.lxor (N.lxor (ROTR 6 x) (ROTR 11 x)) (ROTR 25 x).
Definition ssigma0 (x : N) : N := N.lxor (N.lxor (ROTR 7 x) (ROTR 18 x)) (SHR 3 x).
Definition ssigma1 (x : N) : N := N.lxor (N.lxor (ROTR 17 x) (ROTR 19 x)) (SHR 10 x).
(** 4.2.2 and 5.3.3: the first 32 bits of the fractional parts of the cube and square roots of the first primes *)
Definition primes : list N := [2; 3; 5; 7; 11; 13; 17; 19; 23; 29; 31; 37; 41; 43; 47; 53; 59; 61; 67; 71; 73; 79; 83; 89; 97; 101; 103; 107; 109; 113; 127; 131;
  137; 139; 149; 151; 157; 163; 167; 173; 179; 181; 191; 193; 197; 199; 211; 223; 227; 229; 233; 239; 241; 251; 257; 263; 269; 271; 277; 281; 283; 293; 307; 311].
Definition cube_root_fraction (p v : N) : Prop := exists c, c ^ 3 <= p * 2 ^ 96 < (c + 1) ^ 3 /\ v = c mod 2 ^ 32.
Definition square_root_fraction (p v : N) : Prop := exists c, c ^ 2 <= p * 2 ^ 64 < (c + 1) ^ 2 /\ v = c mod 2 ^ 32.
(** 6.2.2, step 1 *)
Definition extend (ws : list N) : list N :=
  let W k := nth (length ws - k)%nat ws 0 in ws ++ [add32 (add32 (add32 (ssigma1 (W 2%nat)) (W 7%nat)) (ssigma0 (W 15%nat))) (W 16%nat)].
Definition schedule (m : list N) : list N := Nat.iter 48 extend m.
(** step 3 *)
Record regs := mkRegs { a_ : N; b_ : N; c_ : N; d_ : N; e_ : N; f_ : N; g_ : N; h_ : N }.
Definition step (s : regs) (k w : N) : regs :=
  let t1 := add32 (add32 (add32 (add32 (h_ s) (Sigma1 (e_ s))) (Ch (e_ s) (f_ s) (g_ s))) k) w in
  let t2 := add32 (Sigma0 (a_ s)) (Maj (a_ s) (b_ s) (c_ s)) in
  mkRegs (add32 t1 t2) (a_ s) (b_ s) (c_ s) (add32 (d_ s) t1) (e_ s) (f_ s) (g_ s).
Definition regs_list (s : regs) : list N := [a_ s; b_ s; c_ s; d_ s; e_ s; f_ s; g_ s; h_ s].
Definition rounds (K m : list N) (s : regs) (n : nat) : regs := fold_left (fun s t => step s (nth t K 0) (nth t (schedule m) 0)) (seq 0 n) s.
(** step 4 *)
Definition compress (K : list N) (s : regs) (m : list N) : list N := map (fun p => add32 (fst p) (snd p)) (combine (regs_list (rounds K m s 64)) (regs_list s)).
Definition init_regs : regs := let i n := nth n INIT 0 in mkRegs (i 0%nat) (i 1%nat) (i 2%nat) (i 3%nat) (i 4%nat) (i 5%nat) (i 6%nat) (i 7%nat).

(** * Constants *)
Definition cube_candidate (p v : N) : N := fold_right (fun i r => let c := i * 2 ^ 32 + v in if (c ^ 3 <=? p * 2 ^ 96) && (p * 2 ^ 96 <? (c + 1) ^ 3) then c else r) 0 [1; 2; 3; 4; 5; 6].
(** C84: the constants of the code are those of the standard. *)
Theorem constants_correct : (forall i, (i < 64)%nat -> cube_root_fraction (nth i primes 0) (nth i ROUND_CONSTS_K 0)) /\ (forall i, (i < 8)%nat -> square_root_fraction (nth i primes 0) (nth i INIT 0)).
Proof.
  split; intros i Hi.
  - assert (T : forallb (fun i => let p := nth i primes 0 in let v := nth i ROUND_CONSTS_K 0 in let c := cube_candidate p v in (c ^ 3 <=? p * 2 ^ 96) && (p * 2 ^ 96 <? (c + 1) ^ 3) && (v =? c mod 2 ^ 32)) (seq 0 64) = true) by (vm_compute; reflexivity).
    rewrite forallb_forall in T. specialize (T i). rewrite in_seq in T. specialize (T ltac:(lia)). cbv zeta in T. apply andb_true_iff in T. destruct T as [T T3]. apply andb_true_iff in T. destruct T as [T1 T2].
    exists (cube_candidate (nth i primes 0) (nth i ROUND_CONSTS_K 0)). apply N.leb_le in T1. apply N.ltb_lt in T2. apply N.eqb_eq in T3. auto.
  - assert (T : forallb (fun i => let p := nth i primes 0 in let v := nth i INIT 0 in let c := N.sqrt (p * 2 ^ 64) in (c ^ 2 <=? p * 2 ^ 64) && (p * 2 ^ 64 <? (c + 1) ^ 2) && (v =? c mod 2 ^ 32)) (seq 0 8) = true) by (vm_compute; reflexivity).
    rewrite forallb_forall in T. specialize (T i). rewrite in_seq in T. specialize (T ltac:(lia)). cbv zeta in T. apply andb_true_iff in T. destruct T as [T T3]. apply andb_true_iff in T. destruct T as [T1 T2].
    exists (N.sqrt (nth i primes 0 * 2 ^ 64)). apply N.leb_le in T1. apply N.ltb_lt in T2. apply N.eqb_eq in T3. auto.
Qed.
Local Close Scope N_scope.

(** * Words *)
Definition ok32 (v : N) : Prop := forall i, (32 <= i)%N -> N.testbit v i = false.
Lemma ok32_lt v : (v < 2 ^ 32)%N -> ok32 v.
Proof. intros H i Hi. destruct (N.eq_dec v 0) as [->|NZ]; [apply N.bits_0|]. apply N.bits_above_log2. apply N.lt_le_trans with 32%N; [|exact Hi]. apply N.log2_lt_pow2; [lia|exact H]. Qed.
Lemma word_bit c z : z < 32 -> N.testbit (word c) (N.of_nat z) = c z.
Proof. intros H. unfold word. rewrite bits_value_bit, (proj2 (Nat.ltb_lt _ _)) by exact H. reflexivity. Qed.
Lemma word_ok c : ok32 (word c).
Proof. intros k Hk. unfold word. rewrite <- (N2Nat.id k), bits_value_bit, (proj2 (Nat.ltb_ge _ _)) by lia. reflexivity. Qed.
Lemma word_ext c v : ok32 v -> (forall z, z < 32 -> N.testbit v (N.of_nat z) = c z) -> word c = v.
Proof.
  intros O H. apply N.bits_inj. intros i. destruct (N.lt_ge_cases i 32) as [LT|GE]; [|rewrite word_ok, O by exact GE; reflexivity].
  rewrite <- (N2Nat.id i), word_bit by lia. symmetry. apply H. lia.
Qed.
Lemma word_cols c c' : (forall z, z < 32 -> c z = c' z) -> word c = word c'.
Proof. intros H. apply word_ext; [apply word_ok|]. intros z Hz. rewrite word_bit by exact Hz. symmetry. now apply H. Qed.
Lemma word_const v : (v < 2 ^ 32)%N -> word (const32 v) = v.
Proof. intros H. apply word_ext; [now apply ok32_lt|reflexivity]. Qed.
Lemma ok32_xor a b : ok32 a -> ok32 b -> ok32 (N.lxor a b).
Proof. intros A B i Hi. now rewrite N.lxor_spec, A, B. Qed.
Lemma ok32_and a b : ok32 b -> ok32 (N.land a b).
Proof. intros B i Hi. rewrite N.land_spec, B by exact Hi. apply andb_false_r. Qed.
Lemma ok32_shr n v : ok32 v -> ok32 (N.shiftr v n).
Proof. intros B i Hi. rewrite N.shiftr_spec'. apply B. lia. Qed.
Lemma ok32_rotr n v : ok32 v -> ok32 (ROTR n v).
Proof. intros B i Hi. unfold ROTR, M32. rewrite N.lor_spec, (ok32_shr n v B i Hi), N.land_spec, N.ones_spec_high, andb_false_r by exact Hi. reflexivity. Qed.
Lemma rotr_bit n c z : 0 < n -> n < 32 -> z < 32 -> N.testbit (ROTR (N.of_nat n) (word c)) (N.of_nat z) = rotated 5 (32 - n) c z.
Proof.
  intros H0 Hn Hz. unfold ROTR, M32, rotated. change (2 ^ 5) with 32. cbv zeta. rewrite (Nat.mod_small z 32) by exact Hz. rewrite Nat.sub_diag. replace (32 - (32 - n)) with n by lia.
  rewrite N.lor_spec, N.land_spec, N.ones_spec_low, andb_true_r, N.shiftr_spec' by lia. destruct (Nat.lt_ge_cases (z + n) 32) as [LT|GE].
  - rewrite N.shiftl_spec_low by lia. rewrite orb_false_r, Nat.mod_small by exact LT. replace (N.of_nat z + N.of_nat n)%N with (N.of_nat (z + n)) by lia. now apply word_bit.
  - rewrite N.shiftl_spec_high' by lia. rewrite word_ok by lia. cbn [orb]. replace (z + n) with (z + n - 32 + 1 * 32) by lia. rewrite Nat.mod_add, Nat.mod_small by lia. replace (N.of_nat z - (32 - N.of_nat n))%N with (N.of_nat (z + n - 32)) by lia. rewrite word_bit by lia. reflexivity.
Qed.
Lemma shr_bit n c z : z < 32 -> N.testbit (SHR (N.of_nat n) (word c)) (N.of_nat z) = shr 5 n c z.
Proof.
  intros Hz. unfold SHR, shr. change (2 ^ 5) with 32. rewrite (Nat.mod_small z 32), N.shiftr_spec' by lia. replace (N.of_nat z + N.of_nat n)%N with (N.of_nat (z + n)) by lia. destruct (Nat.ltb_spec (z + n) 32) as [LT|GE]; [now apply word_bit|apply word_ok; lia].
Qed.
Ltac sig := intros; apply word_ext; [repeat (first [apply ok32_xor | apply ok32_rotr | apply ok32_shr | apply word_ok])|intros z Hz; rewrite !N.lxor_spec].
Lemma word_sigma0 c : word (sigma0 c) = ssigma0 (word c).
Proof. unfold ssigma0. sig. rewrite (rotr_bit 7), (rotr_bit 18), (shr_bit 3) by lia. reflexivity. Qed.
Lemma word_sigma1 c : word (sigma1 c) = ssigma1 (word c).
Proof. unfold ssigma1. sig. rewrite (rotr_bit 17), (rotr_bit 19), (shr_bit 10) by lia. reflexivity. Qed.
Lemma word_bigsigma0 c : word (bigsigma0 c) = Sigma0 (word c).
Proof. unfold Sigma0. sig. rewrite (rotr_bit 2), (rotr_bit 13), (rotr_bit 22) by lia. reflexivity. Qed.
Lemma word_bigsigma1 c : word (bigsigma1 c) = Sigma1 (word c).
Proof. unfold Sigma1. sig. rewrite (rotr_bit 6), (rotr_bit 11), (rotr_bit 25) by lia. reflexivity. Qed.

(** * Addition *)
Lemma bits_value_S g k : bits_value g (S k) = (bits_value g k + (if g k then 2 ^ N.of_nat k else 0))%N.
Proof.
  cbn [bits_value]. destruct (g k); [|now rewrite N.lor_0_r, N.add_0_r]. rewrite N.shiftl_1_l. assert (D : N.land (bits_value g k) (2 ^ N.of_nat k) = 0%N).
  { apply N.bits_inj. intros i. rewrite N.land_spec, N.bits_0, N.pow2_bits_eqb. rewrite <- (N2Nat.id i), bits_value_bit. destruct (N.eqb_spec (N.of_nat k) (N.of_nat (N.to_nat i))) as [E|NE]; [|apply andb_false_r]. rewrite (proj2 (Nat.ltb_ge _ _)) by lia. reflexivity. }
  rewrite N.add_nocarry_lxor by exact D. now rewrite N.lxor_lor by exact D.
Qed.
Lemma bits_value_lt g k : (bits_value g k < 2 ^ N.of_nat k)%N.
Proof. induction k as [|k IH]; [reflexivity|]. rewrite bits_value_S, Nat2N.inj_succ, N.pow_succ_r'. destruct (g k); lia. Qed.
Lemma ripple x y cout z n : (forall p, p < n -> carry_zero x y cout p = false /\ z p = sum_col x y cout p) -> n <= 32 -> forall k, k <= n ->
  (bits_value x k + bits_value y k = bits_value z k + 2 ^ N.of_nat k * N.b2n (match k with O => false | S k => cout k end))%N.
Proof.
  intros H Hn. induction k as [|k IH]; intros Hk; [reflexivity|]. specialize (IH ltac:(lia)). destruct (H k ltac:(lia)) as [HC HS]. rewrite !bits_value_S, Nat2N.inj_succ, N.pow_succ_r'.
  assert (CI : carry_in cout k = match k with O => false | S k => cout k end).
  { unfold carry_in, shl. change (2 ^ 5) with 32. rewrite (Nat.mod_small k) by lia. destruct k as [|k]; [reflexivity|]. cbn [Nat.leb]. f_equal. lia. }
  unfold carry_zero, sum_col, plus, times in HC, HS. rewrite CI in HC, HS. set (c := match k with O => false | S k => cout k end) in *. rewrite HS. destruct (x k), (y k), c, (cout k); cbn in HC; try discriminate HC; cbn [xorb N.b2n] in *; lia.
Qed.
Lemma add_word x y cout z : (forall p, p < 32 -> carry_zero x y cout p = false /\ z p = sum_col x y cout p) -> word z = add32 (word x) (word y).
Proof.
  intros H. pose proof (ripple x y cout z 32 H ltac:(lia) 32 ltac:(lia)) as R. unfold word, add32. rewrite R. change (N.of_nat 32) with 32%N. rewrite N.mul_comm, N.mod_add by discriminate. rewrite N.mod_small; [reflexivity|]. apply bits_value_lt.
Qed.
Lemma add_holds_word x y cout z : add_holds x y cout z -> word z = add32 (word x) (word y).
Proof. intros [HC HS]. apply (add_word x y cout). intros p Hp. split; [now apply HC|]. specialize (HS p Hp). unfold plus at 1 in HS. symmetry. now apply xorb_eq. Qed.
(** blocks *)
Lemma blk i p : p < 32 -> (32 * i + p) mod 32 = p.
Proof. intros H. replace (32 * i + p) with (p + i * 32) by lia. rewrite Nat.mod_add, Nat.mod_small; lia. Qed.
Lemma block_rot i k a p : p < 32 -> block32 i (rotated 5 k a) p = rotated 5 k (block32 i a) p.
Proof. intros H. unfold block32, rotated. change (2 ^ 5) with 32. cbv zeta. rewrite blk, (Nat.mod_small p) by exact H. f_equal. lia. Qed.
Lemma block_shr i k a p : p < 32 -> block32 i (shr 5 k a) p = shr 5 k (block32 i a) p.
Proof. intros H. unfold block32, shr. change (2 ^ 5) with 32. rewrite blk, (Nat.mod_small p) by exact H. destruct (_ <? _); [f_equal; lia|reflexivity]. Qed.
Lemma block_sigma0 i a : word (block32 i (sigma0 a)) = ssigma0 (word (block32 i a)).
Proof. rewrite <- word_sigma0. apply word_cols. intros z Hz. unfold sigma0, plus. rewrite <- !block_rot, <- block_shr by exact Hz. reflexivity. Qed.
Lemma block_sigma1 i a : word (block32 i (sigma1 a)) = ssigma1 (word (block32 i a)).
Proof. rewrite <- word_sigma1. apply word_cols. intros z Hz. unfold sigma1, plus. rewrite <- !block_rot, <- block_shr by exact Hz. reflexivity. Qed.
Lemma block_carry i c p : p < 32 -> carry_in c (32 * i + p) = carry_in (block32 i c) p.
Proof. intros H. unfold carry_in, shl, block32. change (2 ^ 5) with 32. rewrite blk, (Nat.mod_small p) by exact H. destruct (Nat.leb_spec 1 p); [f_equal; lia|reflexivity]. Qed.
Lemma stacked_word x y cout i : i < 64 -> stacked_holds x y cout -> word (block32 i (sum_col x y cout)) = add32 (word (block32 i x)) (word (block32 i y)).
Proof.
  intros Hi H. apply (add_word _ _ (block32 i cout)). intros p Hp. specialize (H (32 * i + p) ltac:(lia)). unfold carry_zero, sum_col, plus, times in *. rewrite !block_carry in H by exact Hp. split; [exact H|]. unfold block32 at 1. now rewrite block_carry by exact Hp.
Qed.
Lemma block_shr11 j k a : j + k < 64 -> word (block32 j (shr 11 (32 * k) a)) = word (block32 (j + k) a).
Proof.
  intros H. apply word_cols. intros p Hp. unfold block32, shr. change (2 ^ 11) with 2048. rewrite Nat.mod_small by lia. rewrite (proj2 (Nat.ltb_lt _ _)) by lia. f_equal. lia.
Qed.
Lemma add32_lt a b : (add32 a b < 2 ^ 32)%N. Proof. apply N.mod_upper_bound. discriminate. Qed.
Lemma add32_comm a b : add32 a b = add32 b a. Proof. unfold add32. now rewrite N.add_comm. Qed.
Lemma add32_assoc a b c : add32 a (add32 b c) = add32 (add32 a b) c.
Proof. unfold add32. rewrite N.add_mod_idemp_r, N.add_mod_idemp_l by discriminate. now rewrite N.add_assoc. Qed.

(** * Soundness *)
Lemma extends f : forall n, n <= 48 -> (forall j, j < 48 -> f (j + 16) = add32 (add32 (add32 (ssigma1 (f (j + 14))) (f (j + 9))) (ssigma0 (f (j + 1)))) (f j)) ->
  Nat.iter n extend (map f (seq 0 16)) = map f (seq 0 (16 + n)).
Proof.
  intros n Hn H. induction n as [|n IH]; [reflexivity|]. cbn [Nat.iter nat_rect]. change (nat_rect (fun _ => list N) (map f (seq 0 16)) (fun _ => extend) n) with (Nat.iter n extend (map f (seq 0 16))). rewrite IH by lia.
  unfold extend. rewrite map_length, seq_length. cbv zeta. replace (16 + S n) with (S (16 + n)) by lia. rewrite (seq_S (16 + n) 0), map_app. f_equal. cbn [map]. f_equal.
  assert (NT : forall k, 0 < k -> k <= 16 -> nth (16 + n - k) (map f (seq 0 (16 + n))) 0%N = f (16 + n - k)) by (intros k K1 K2; rewrite (nth_indep _ 0%N (f 0)) by (rewrite map_length, seq_length; lia); rewrite map_nth, seq_nth by lia; reflexivity).
  rewrite !NT by lia. replace (0 + (16 + n)) with (n + 16) by lia. rewrite (H n) by lia. replace (16 + n - 2) with (n + 14) by lia. replace (16 + n - 7) with (n + 9) by lia. replace (16 + n - 15) with (n + 1) by lia. replace (16 + n - 16) with n by lia. reflexivity.
Qed.
Definition message (s : sha_cols) : list N := map (fun i => word (sh_in s i)) (seq 0 16).
Lemma schedule_words s : sha_holds s -> schedule (message s) = map (fun i => word (block32 i (sh_w s))) (seq 0 64).
Proof.
  intros (H0 & H1 & H3 & HS & _). cbv zeta in *. unfold schedule, message, sh_in. apply (extends (fun i => word (block32 i (sh_w s))) 48); [lia|]. intros j Hj. set (w := sh_w s) in *.
  assert (E : word (block32 j (sum_col (sum_col w (w_minus_7 w) (sh_c0 s)) (sum_col (sigma0_minus_15 w) (sigma1_minus_2 w) (sh_c1 s)) (sh_c3 s))) = word (block32 j (w_minus_16 w))).
  { apply word_cols. intros p Hp. specialize (HS (32 * j + p) ltac:(lia)). unfold times, selector in HS. rewrite (proj2 (Nat.ltb_lt _ _)) in HS by lia. cbn [andb] in HS. unfold plus at 1 in HS. apply xorb_eq in HS. exact HS. }
  unfold w_minus_16 in E. rewrite block_shr11 in E by lia. rewrite <- E. rewrite stacked_word by (assumption || lia). rewrite !stacked_word by (assumption || lia). unfold w_minus_7, sigma0_minus_15, sigma1_minus_2.
  assert (S15 : word (block32 j (shr 11 32 (sigma0 w))) = word (block32 (j + 1) (sigma0 w))) by (apply (block_shr11 j 1); lia). rewrite S15, !block_shr11 by lia. rewrite block_sigma0, block_sigma1. change (16 - 7) with 9. change (16 - 2) with 14.
  set (A := word (block32 j w)). set (B := word (block32 (j + 9) w)). set (C := ssigma0 _). set (D := ssigma1 _).
  rewrite (add32_comm C D), (add32_comm A B), add32_assoc, (add32_comm (add32 B A) D), add32_assoc, <- (add32_assoc (add32 D B) A C), (add32_comm A C), add32_assoc. reflexivity.
Qed.
Definition words (v : vars) : regs := mkRegs (word (va v)) (word (vb v)) (word (vc v)) (word (vd v)) (word (ve v)) (word (vf v)) (word (vg v)) (word (vh v)).
Lemma round_word v k w r : round_holds v k w r -> words (next_vars v r) = step (words v) (word k) (word w).
Proof.
  intros (HC & HM & A0 & A1 & A2 & A3 & A4 & A5 & A6). apply add_holds_word in A0, A1, A2, A3, A4, A5, A6. rewrite word_bigsigma1 in A0. rewrite word_bigsigma0 in A4.
  assert (CH : word (r_ch r) = Ch (word (ve v)) (word (vf v)) (word (vg v))).
  { unfold Ch. apply word_ext; [apply ok32_xor; apply ok32_and, word_ok|]. intros z Hz. specialize (HC z Hz). unfold plus, times in HC. unfold M32. rewrite N.lxor_spec, !N.land_spec, N.lxor_spec, N.ones_spec_low, !word_bit by lia.
    revert HC. generalize (r_ch r z) (ve v z) (vf v z) (vg v z). clear. intros [] [] [] []; cbn; congruence. }
  assert (MJ : word (r_maj r) = Maj (word (va v)) (word (vb v)) (word (vc v))).
  { unfold Maj. apply word_ext; [repeat apply ok32_xor; apply ok32_and, word_ok|]. intros z Hz. specialize (HM z Hz). unfold plus, times in HM. rewrite !N.lxor_spec, !N.land_spec, !word_bit by lia.
    revert HM. generalize (r_maj r z) (va v z) (vb v z) (vc v z). clear. intros [] [] [] []; cbn; congruence. }
  unfold next_vars, words, step. cbn [va vb vc vd ve vf vg vh a_ b_ c_ d_ e_ f_ g_ h_]. cbv zeta.
  assert (T1 : word (r_sum r 3) = add32 (add32 (add32 (add32 (word (vh v)) (Sigma1 (word (ve v)))) (Ch (word (ve v)) (word (vf v)) (word (vg v)))) (word k)) (word w)).
  { rewrite A3, A2, A0, A1, CH. now rewrite !add32_assoc. }
  rewrite A5, A6, A4, T1, MJ. reflexivity.
Qed.
Lemma small_consts : (forall i, nth i ROUND_CONSTS_K 0 < 2 ^ 32)%N /\ (forall i, nth i INIT 0 < 2 ^ 32)%N.
Proof.
  assert (G : forall l, forallb (fun v => (v <? 2 ^ 32)%N) l = true -> forall i, (nth i l 0 < 2 ^ 32)%N).
  { intros l H i. rewrite forallb_forall in H. destruct (Nat.lt_ge_cases i (length l)) as [LT|GE]; [apply N.ltb_lt, H; now apply nth_In|]. rewrite nth_overflow by exact GE. reflexivity. }
  split; apply G; vm_compute; reflexivity.
Qed.
Lemma words_init : words initial_vars = init_regs.
Proof. unfold words, initial_vars, init_regs. cbv zeta. cbn [va vb vc vd ve vf vg vh]. rewrite !word_const by apply small_consts. reflexivity. Qed.
Lemma words_at s n : sha_holds s -> n <= 64 -> words (vars_at s n) = rounds ROUND_CONSTS_K (message s) init_regs n.
Proof.
  intros H. induction n as [|n IH]; intros Hn; [exact words_init|]. unfold rounds in *. rewrite seq_S, fold_left_app. cbn [fold_left Nat.add]. rewrite <- IH by lia. cbn [vars_at].
  rewrite (schedule_words s H). destruct H as (_ & _ & _ & _ & HR & _). specialize (HR n ltac:(lia)). rewrite (round_word _ _ _ _ HR), word_const by apply small_consts. f_equal.
  rewrite (nth_indep _ 0%N ((fun i => word (block32 i (sh_w s))) 0)) by (rewrite map_length, seq_length; lia). rewrite (map_nth (fun i => word (block32 i (sh_w s)))), seq_nth by lia. reflexivity.
Qed.
(** C84, soundness: where the constraints hold, the output words are the compression of the message words. *)
Theorem sha256_sound s : sha_holds s -> map (fun i => word (sh_out s i)) (seq 0 8) = compress ROUND_CONSTS_K init_regs (map (fun i => word (sh_in s i)) (seq 0 16)).
Proof.
  intros H. pose proof (words_at s 64 H ltac:(lia)) as E. fold (message s). unfold compress. rewrite <- E, <- words_init. destruct H as (_ & _ & _ & _ & _ & HF). unfold sh_out.
  assert (F : forall i, i < 8 -> word (sh_fsum s i) = add32 (word (nth i (vars_list (vars_at s 64)) zero)) (word (nth i (vars_list initial_vars) zero))) by (intros i Hi; apply (add_holds_word _ _ (sh_fcout s i)); now apply HF).
  cbn [seq map]. rewrite !F by lia. clear. generalize (vars_at s 64) initial_vars. intros v u. unfold words, regs_list, vars_list. cbn [nth a_ b_ c_ d_ e_ f_ g_ h_ combine map fst snd]. reflexivity.
Qed.

(** * Completeness *)
(** the carries of an addition, word by word *)
Fixpoint carry_out (x y : nat -> bool) (k : nat) : bool :=
  match k with O => x 0 && y 0 | S j => let c := carry_out x y j in xorb (xorb (x k) c && xorb (y k) c) c end.
Definition carries (x y : col) : col := fun p => carry_out (block32 (p / 32) x) (block32 (p / 32) y) (p mod 32).
Definition total (x y : col) : col := sum_col x y (carries x y).
Lemma carries_zero x y p : carry_zero x y (carries x y) p = false.
Proof.
  assert (D : p = 32 * (p / 32) + p mod 32) by (apply Nat.div_mod; lia). assert (M : p mod 32 < 32) by (apply Nat.mod_upper_bound; lia).
  assert (X : forall a : col, a p = block32 (p / 32) a (p mod 32)) by (intros a; unfold block32; now rewrite <- D).
  assert (CI : carry_in (carries x y) p = match p mod 32 with O => false | S j => carry_out (block32 (p / 32) x) (block32 (p / 32) y) j end).
  { unfold carry_in, shl. change (2 ^ 5) with 32. destruct (p mod 32) as [|j] eqn:E; [reflexivity|]. cbn [Nat.leb]. unfold carries. replace (p - 1) with (j + (p / 32) * 32) by lia. rewrite Nat.mod_add, Nat.div_add, Nat.div_small, Nat.mod_small by lia. reflexivity. }
  unfold carry_zero, plus, times. rewrite CI, (X x), (X y). unfold carries. destruct (p mod 32) as [|j]; cbn [carry_out]; cbv zeta.
  - rewrite !xorb_false_r. apply xorb_nilpotent.
  - apply xorb_nilpotent.
Qed.
Lemma total_holds x y : add_holds x y (carries x y) (total x y).
Proof. split; intros p _; [apply carries_zero|]. unfold plus at 1, total. apply xorb_nilpotent. Qed.
Definition honest_round (v : vars) (k w : col) : round_cols :=
  let ch := plus (vg v) (times (ve v) (plus (vf v) (vg v))) in
  let maj := plus (times (va v) (plus (vb v) (vc v))) (times (vb v) (vc v)) in
  let s0 := total (bigsigma1 (ve v)) ch in let s1 := total k w in let s2 := total s0 s1 in let s3 := total (vh v) s2 in
  let s4 := total (bigsigma0 (va v)) maj in let s5 := total s3 s4 in let s6 := total (vd v) s3 in
  mkRC ch maj
    (fun i => nth i [carries (bigsigma1 (ve v)) ch; carries k w; carries s0 s1; carries (vh v) s2; carries (bigsigma0 (va v)) maj; carries s3 s4; carries (vd v) s3] zero)
    (fun i => nth i [s0; s1; s2; s3; s4; s5; s6] zero).
Lemma honest_holds v k w : round_holds v k w (honest_round v k w).
Proof.
  unfold honest_round. cbv zeta. split; [|split].
  - intros p _. cbn [r_ch]. unfold plus, times. destruct (vg v p), (ve v p), (vf v p); reflexivity.
  - intros p _. cbn [r_maj]. unfold plus. apply xorb_nilpotent.
  - cbn [r_ch r_maj r_cout r_sum nth]. repeat split; try (intros p _; apply carries_zero); intros p _; unfold plus at 1; apply xorb_nilpotent.
Qed.
Fixpoint honest_vars (w : col) (n : nat) : vars :=
  match n with O => initial_vars | S n => next_vars (honest_vars w n) (honest_round (honest_vars w n) (const32 (nth n ROUND_CONSTS_K 0%N)) (block32 n w)) end.
Definition honest_of (w : col) : sha_cols :=
  let x i := nth i (vars_list (honest_vars w 64)) zero in let y i := nth i (vars_list initial_vars) zero in
  mkSha w (carries w (w_minus_7 w)) (carries (sigma0_minus_15 w) (sigma1_minus_2 w)) (carries (total w (w_minus_7 w)) (total (sigma0_minus_15 w) (sigma1_minus_2 w)))
    (fun n => honest_round (honest_vars w n) (const32 (nth n ROUND_CONSTS_K 0%N)) (block32 n w)) (fun i => carries (x i) (y i)) (fun i => total (x i) (y i)).
Definition schedule_col (m : list N) : col := fun p => N.testbit (nth (p / 32) (schedule m) 0%N) (N.of_nat (p mod 32)).
Definition honest (m : list N) : sha_cols := honest_of (schedule_col m).
Lemma honest_at w n : vars_at (honest_of w) n = honest_vars w n.
Proof. induction n as [|n IH]; cbn [vars_at honest_vars]; [reflexivity|]. rewrite IH. unfold honest_of. cbv zeta. cbn [sh_round]. reflexivity. Qed.
Lemma honest_of_holds w : (forall j, j < 48 -> let W i := word (block32 i w) in W (j + 16) = add32 (add32 (add32 (ssigma1 (W (j + 14))) (W (j + 9))) (ssigma0 (W (j + 1)))) (W j)) -> sha_holds (honest_of w).
Proof.
  intros R. cbv zeta in R. unfold sha_holds. cbv zeta. setoid_rewrite honest_at. unfold honest_of. cbv zeta. cbn [sh_w sh_c0 sh_c1 sh_c3 sh_round sh_fcout sh_fsum]. fold (total w (w_minus_7 w)) (total (sigma0_minus_15 w) (sigma1_minus_2 w)).
  assert (Z0 : stacked_holds w (w_minus_7 w) (carries w (w_minus_7 w))) by (intros p _; apply carries_zero). assert (Z1 : stacked_holds (sigma0_minus_15 w) (sigma1_minus_2 w) (carries (sigma0_minus_15 w) (sigma1_minus_2 w))) by (intros p _; apply carries_zero).
  assert (Z3 : stacked_holds (total w (w_minus_7 w)) (total (sigma0_minus_15 w) (sigma1_minus_2 w)) (carries (total w (w_minus_7 w)) (total (sigma0_minus_15 w) (sigma1_minus_2 w)))) by (intros p _; apply carries_zero).
  split; [exact Z0|]. split; [exact Z1|]. split; [exact Z3|]. split; [|split].
  - intros p Hp. unfold times, selector. destruct (Nat.ltb_spec p (32 * 48)) as [LT|GE]; [cbn [andb]|reflexivity]. unfold plus at 1.
    assert (J : p / 32 < 48) by (apply Nat.div_lt_upper_bound; lia). assert (M : p mod 32 < 32) by (apply Nat.mod_upper_bound; lia).
    set (s3 := sum_col _ _ _). assert (E : word (block32 (p / 32) s3) = word (block32 (p / 32) (w_minus_16 w))).
    { unfold s3. rewrite (stacked_word _ _ _ (p / 32) ltac:(lia) Z3). unfold total. rewrite (stacked_word _ _ _ (p / 32) ltac:(lia) Z0), (stacked_word _ _ _ (p / 32) ltac:(lia) Z1). unfold w_minus_7, sigma0_minus_15, sigma1_minus_2, w_minus_16.
      assert (S15 : word (block32 (p / 32) (shr 11 32 (sigma0 w))) = word (block32 (p / 32 + 1) (sigma0 w))) by (apply (block_shr11 (p / 32) 1); lia). rewrite S15, !block_shr11 by lia. rewrite block_sigma0, block_sigma1. change (16 - 7) with 9. change (16 - 2) with 14.
      rewrite (R (p / 32) J). set (A := word (block32 (p / 32) w)). set (B := word (block32 (p / 32 + 9) w)). set (C := ssigma0 _). set (D := ssigma1 _).
      rewrite (add32_comm C D), (add32_comm A B), add32_assoc, (add32_comm (add32 B A) D), add32_assoc, <- (add32_assoc (add32 D B) A C), (add32_comm A C), add32_assoc. reflexivity. }
    pose proof (f_equal (fun v => N.testbit v (N.of_nat (p mod 32))) E) as E'. cbv beta in E'. rewrite !word_bit in E' by exact M. unfold block32 in E'. rewrite <- (Nat.div_mod p 32) in E' by lia. rewrite E'. apply xorb_nilpotent.
  - intros i Hi. apply honest_holds.
  - intros i Hi. apply total_holds.
Qed.
Lemma iter_extend m n : length m = 16 -> length (Nat.iter n extend m) = 16 + n /\ (forall i, i < 16 -> nth i (Nat.iter n extend m) 0%N = nth i m 0%N) /\
  (forall j, j < n -> let W i := nth i (Nat.iter n extend m) 0%N in W (j + 16) = add32 (add32 (add32 (ssigma1 (W (j + 14))) (W (j + 9))) (ssigma0 (W (j + 1)))) (W j)).
Proof.
  intros L. induction n as [|n (IL & IP & IR)]; [split; [exact L|]; split; [reflexivity|intros; lia]|]. change (Nat.iter (S n) extend m) with (extend (Nat.iter n extend m)). set (ws := Nat.iter n extend m) in *. unfold extend. cbv zeta. rewrite app_length, IL. cbn [length]. split; [lia|]. split.
  - intros i Hi. rewrite app_nth1 by lia. now apply IP.
  - intros j Hj. cbv zeta in IR. destruct (Nat.eq_dec j n) as [->|NE].
    + rewrite (app_nth2 ws) by lia. rewrite !app_nth1 by lia. replace (n + 16 - length ws) with 0 by lia. cbn [nth]. replace (16 + n - 2) with (n + 14) by lia. replace (16 + n - 7) with (n + 9) by lia. replace (16 + n - 15) with (n + 1) by lia. replace (16 + n - 16) with n by lia. reflexivity.
    + rewrite !app_nth1 by lia. apply IR. lia.
Qed.
Lemma schedule_facts m : length m = 16 -> (forall i, i < 16 -> nth i (schedule m) 0%N = nth i m 0%N) /\
  (forall j, j < 48 -> let W i := nth i (schedule m) 0%N in W (j + 16) = add32 (add32 (add32 (ssigma1 (W (j + 14))) (W (j + 9))) (ssigma0 (W (j + 1)))) (W j)).
Proof. intros L. unfold schedule. exact (proj2 (iter_extend m 48 L)). Qed.
Lemma schedule_small m i : length m = 16 -> (forall i, (nth i m 0 < 2 ^ 32)%N) -> i < 64 -> (nth i (schedule m) 0 < 2 ^ 32)%N.
Proof.
  intros L S Hi. destruct (schedule_facts m L) as (P & R). destruct (Nat.lt_ge_cases i 16) as [LT|GE]; [rewrite P by exact LT; apply S|].
  replace i with (i - 16 + 16) by lia. cbv zeta in R. rewrite R by lia. apply add32_lt.
Qed.
Lemma honest_word m i : length m = 16 -> (forall i, (nth i m 0 < 2 ^ 32)%N) -> i < 64 -> word (block32 i (schedule_col m)) = nth i (schedule m) 0%N.
Proof.
  intros L S Hi. apply word_ext; [apply ok32_lt, schedule_small; assumption|]. intros z Hz. unfold block32, schedule_col. rewrite blk by exact Hz. replace (32 * i + z) with (z + i * 32) by lia. rewrite Nat.div_add, Nat.div_small by lia. reflexivity.
Qed.
(** C84, completeness: every message block has a satisfying row. *)
Theorem sha256_complete m : length m = 16 -> (forall i, (nth i m 0 < 2 ^ 32)%N) -> exists s, sha_holds s /\ map (fun i => word (sh_in s i)) (seq 0 16) = m /\
  map (fun i => word (sh_out s i)) (seq 0 8) = compress ROUND_CONSTS_K init_regs m.
Proof.
  intros L S. exists (honest m). destruct (schedule_facts m L) as (P & R). cbv zeta in R. assert (I : map (fun i => word (sh_in (honest m) i)) (seq 0 16) = m).
  { unfold sh_in. change (sh_w (honest m)) with (schedule_col m). apply nth_ext with (d := 0%N) (d' := 0%N); rewrite map_length, seq_length; [now rewrite L|]. intros i Hi.
    rewrite (nth_indep _ 0%N ((fun i => word (block32 i (schedule_col m))) 0)) by (rewrite map_length, seq_length; lia). rewrite (map_nth (fun i => word (block32 i (schedule_col m)))), seq_nth by lia. rewrite honest_word by (assumption || lia). now apply P. }
  assert (H : sha_holds (honest m)).
  { apply (honest_of_holds (schedule_col m)). intros j Hj. cbv beta zeta. rewrite !honest_word by (assumption || lia). now apply R. }
  split; [exact H|]. split; [exact I|]. rewrite (sha256_sound _ H), I. reflexivity.
Qed.
(** The empty message, padded: the words of its digest. *)
Definition padded_empty : list N := 0x80000000%N :: repeat 0%N 15.
Lemma padded_small i : (nth i padded_empty 0 < 2 ^ 32)%N.
Proof. destruct i as [|i]; [reflexivity|]. cbn [padded_empty nth]. rewrite nth_repeat. reflexivity. Qed.
Fact empty_digest : compress ROUND_CONSTS_K init_regs padded_empty = [0xe3b0c442; 0x98fc1c14; 0x9afbf4c8; 0x996fb924; 0x27ae41e4; 0x649b934c; 0xa495991b; 0x7852b855]%N.
Proof. vm_compute. reflexivity. Qed.
Fact empty_gadget : exists s, sha_holds s /\ map (fun i => word (sh_in s i)) (seq 0 16) = padded_empty.
Proof. destruct (sha256_complete padded_empty eq_refl padded_small) as (s & H & I & _). exact (ex_intro _ s (conj H I)). Qed.
