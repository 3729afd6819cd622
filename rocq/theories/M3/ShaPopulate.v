(** C84: what Sha256::populate writes, word by word, is the satisfying row of [sha256_complete]. *)
Require Import Coq.NArith.NArith Coq.Arith.Arith Coq.Lists.List Coq.Bool.Bool Lia.
From Verif Require Import M3.KeccakModel M3.KeccakProps M3.ShaModel M3.ShaProps.
Import ListNotations.
Local Open Scope nat_scope.

(** * Model *)
(** u32: rotate_right, wrapping_add *)
Definition rotate_right (v : N) (n : N) : N := N.lor (N.shiftr v n) (N.land (N.shiftl v (32 - n)) (N.ones 32)).
Definition wrapping_add (a b : N) : N := ((a + b) mod 2 ^ 32)%N.
(** sha256.rs, lines 849-864: the iteration that appends word [length w] *)
Definition schedule_next (w : list N) : list N :=
  let i := length w in let at_ k := nth (i - k) w 0%N in
  let s0 := N.lxor (N.lxor (rotate_right (at_ 15) 7) (rotate_right (at_ 15) 18)) (N.shiftr (at_ 15) 3) in
  let s1 := N.lxor (N.lxor (rotate_right (at_ 2) 17) (rotate_right (at_ 2) 19)) (N.shiftr (at_ 2) 10) in
  w ++ [wrapping_add (wrapping_add (wrapping_add (at_ 16) s0) (at_ 7)) s1].
Definition compute_message_schedule (message : list N) : list N := Nat.iter 48 schedule_next message.
(** lines 291-354 and the populate of the sigma gadgets (lines 599-618, 673-692): words written for one row; words not written are zero *)
Section Words.
  Variable w : nat -> N.
  Definition pop_w_minus_16 (j : nat) : N := if j <? 48 then w (j + 16) else 0%N.
  Definition pop_w_minus_7 (j : nat) : N := if j <? 55 then w (j + 9) else 0%N.
  Definition pop_selector (j : nat) : N := if j <? 48 then 0xFFFFFFFF%N else 0%N.
  Definition pop_sigma0 (j : nat) : N := N.lxor (N.lxor (rotate_right (w j) 7) (rotate_right (w j) 18)) (N.shiftr (w j) 3).
  Definition pop_sigma1 (j : nat) : N := N.lxor (N.lxor (rotate_right (w j) 17) (rotate_right (w j) 19)) (N.shiftr (w j) 10).
  Definition pop_sigma0_minus_15 (j : nat) : N := if j <? 63 then pop_sigma0 (j + 1) else 0%N.
  Definition pop_sigma1_minus_2 (j : nat) : N := if j <? 50 then pop_sigma1 (j + 14) else 0%N.
End Words.
(** add.rs, U32Add::populate and U32AddStacked::populate without carry in: (zout, cin, cout) *)
Definition pop_add (x y : N) : N * N * N :=
  let zout := wrapping_add x y in let carry := (2 ^ 32 <=? x + y)%N in let cin := N.lxor (N.lxor x y) zout in
  (zout, cin, N.lor (N.shiftl (N.b2n carry) 31) (N.shiftr cin 1)).

(** * Theorems *)
Lemma wrapping_spec a b : wrapping_add a b = add32 a b. Proof. reflexivity. Qed.
Lemma next_extend w : schedule_next w = extend w.
Proof.
  unfold schedule_next, extend. cbv zeta. do 2 f_equal. change wrapping_add with add32. set (A := nth _ w 0%N) at 1. change (N.lxor (N.lxor (rotate_right ?a 7) (rotate_right ?a 18)) (N.shiftr ?a 3)) with (ssigma0 a). change (N.lxor (N.lxor (rotate_right ?a 17) (rotate_right ?a 19)) (N.shiftr ?a 10)) with (ssigma1 a).
  set (B := ssigma0 _). set (C := nth (length w - 7) w 0%N). set (D := ssigma1 _). rewrite (add32_comm (add32 (add32 A B) C) D), (add32_comm A B), <- (add32_assoc B A C), (add32_comm A C), (add32_assoc B C A), (add32_comm B C), !add32_assoc. reflexivity.
Qed.
(** the schedule computed by the code is that of the standard *)
Theorem message_schedule_correct m : compute_message_schedule m = schedule m.
Proof. unfold compute_message_schedule, schedule. generalize 48. induction n as [|n IH]; [reflexivity|]. cbn [Nat.iter nat_rect]. unfold Nat.iter in IH. now rewrite IH, next_extend. Qed.

Lemma pop_sigma0_spec w j : pop_sigma0 w j = ssigma0 (w j). Proof. unfold pop_sigma0, ssigma0, rotate_right, ROTR, SHR, M32. reflexivity. Qed.
Lemma pop_sigma1_spec w j : pop_sigma1 w j = ssigma1 (w j). Proof. unfold pop_sigma1, ssigma1, rotate_right, ROTR, SHR, M32. reflexivity. Qed.
Lemma shr11_none j k a : 64 <= j + k -> j < 64 -> word (block32 j (shr 11 (32 * k) a)) = 0%N.
Proof.
  intros H Hj. apply word_ext; [intros i _; apply N.bits_0|]. intros p Hp. rewrite N.bits_0. unfold block32, shr. change (2 ^ 11) with 2048. rewrite Nat.mod_small by lia. now rewrite (proj2 (Nat.ltb_ge _ _)) by lia.
Qed.
(** C84, the schedule columns: the words that populate writes are those of the derived columns. *)
Theorem schedule_columns (c : col) j : j < 64 -> let w i := word (block32 i c) in
  word (block32 j (w_minus_16 c)) = pop_w_minus_16 w j /\ word (block32 j (w_minus_7 c)) = pop_w_minus_7 w j /\ word (block32 j selector) = pop_selector j /\
  word (block32 j (sigma0 c)) = pop_sigma0 w j /\ word (block32 j (sigma1 c)) = pop_sigma1 w j /\
  word (block32 j (sigma0_minus_15 c)) = pop_sigma0_minus_15 w j /\ word (block32 j (sigma1_minus_2 c)) = pop_sigma1_minus_2 w j.
Proof.
  intros Hj. cbv zeta. assert (SH : forall k a, k < 64 -> word (block32 j (shr 11 (32 * k) a)) = if j <? 64 - k then word (block32 (j + k) a) else 0%N).
  { intros k a Hk. destruct (Nat.ltb_spec j (64 - k)) as [LT|GE]; [apply block_shr11; lia|apply shr11_none; lia]. }
  split; [|split; [|split; [|split; [|split; [|split]]]]].
  - apply (SH 16). lia.
  - apply (SH 9). lia.
  - unfold pop_selector. destruct (Nat.ltb_spec j 48) as [LT|GE].
    + apply word_ext; [apply ok32_lt; reflexivity|]. intros z Hz. unfold block32, selector. rewrite (proj2 (Nat.ltb_lt _ _)) by lia. change 0xFFFFFFFF%N with (N.ones 32). apply N.ones_spec_low. lia.
    + apply word_ext; [intros i _; apply N.bits_0|]. intros z Hz. unfold block32, selector. rewrite (proj2 (Nat.ltb_ge _ _)) by lia. apply N.bits_0.
  - rewrite pop_sigma0_spec. apply block_sigma0.
  - rewrite pop_sigma1_spec. apply block_sigma1.
  - unfold sigma0_minus_15, pop_sigma0_minus_15. rewrite (SH 1) by lia. change (64 - 1) with 63. destruct (j <? 63); [rewrite pop_sigma0_spec; apply block_sigma0|reflexivity].
  - unfold sigma1_minus_2, pop_sigma1_minus_2. rewrite (SH 14) by lia. change (64 - 14) with 50. destruct (j <? 50); [rewrite pop_sigma1_spec; apply block_sigma1|reflexivity].
Qed.
Lemma carry_value v c : (v < 2 ^ 32)%N -> (2 ^ 32 <=? v + 2 ^ 32 * N.b2n c)%N = c.
Proof. intros B. destruct c; cbn [N.b2n]; [apply N.leb_le; lia|apply N.leb_gt; lia]. Qed.
Lemma top_carry x y : (2 ^ 32 <=? word x + word y)%N = carries x y 31.
Proof.
  assert (H : forall p, p < 32 -> carry_zero x y (carries x y) p = false /\ total x y p = sum_col x y (carries x y) p) by (intros p _; split; [apply carries_zero|reflexivity]).
  pose proof (ripple x y (carries x y) (total x y) 32 H (le_n 32) 32 (le_n 32)) as R. unfold word. rewrite R. apply (carry_value (bits_value (total x y) 32)). exact (bits_value_lt (total x y) 32).
Qed.
(** C84, the additions: the words that populate writes are the sum, carry-in and carry-out columns of the satisfying row. *)
Theorem addition_columns x y : pop_add (word x) (word y) = (word (total x y), word (carry_in (carries x y)), word (carries x y)).
Proof.
  assert (H : forall p, p < 32 -> carry_zero x y (carries x y) p = false /\ total x y p = sum_col x y (carries x y) p) by (intros p _; split; [apply carries_zero|reflexivity]).
  pose proof (add_word x y (carries x y) (total x y) H) as T.
  assert (CI : word (carry_in (carries x y)) = N.lxor (N.lxor (word x) (word y)) (word (total x y))).
  { apply word_ext; [repeat apply ok32_xor; apply word_ok|]. intros z Hz. rewrite !N.lxor_spec, !word_bit by exact Hz. unfold total, sum_col, plus. destruct (x z), (y z), (carry_in (carries x y) z); reflexivity. }
  pose proof (top_carry x y) as CO.
  unfold pop_add. cbv zeta. rewrite wrapping_spec, <- T, <- CI, CO. f_equal. symmetry. apply word_ext.
  - intros i Hi. rewrite N.lor_spec, N.shiftr_spec', (word_ok _ (i + 1)%N), N.shiftl_spec_high' by lia. rewrite orb_false_r. destruct (carries x y 31); [|apply N.bits_0]. apply N.bits_above_log2. change (N.log2 (N.b2n true)) with 0%N. lia.
  - intros z Hz. rewrite N.lor_spec, N.shiftr_spec'. destruct (Nat.eq_dec z 31) as [->|NE].
    + rewrite (word_ok _ (N.of_nat 31 + 1)%N), orb_false_r, N.shiftl_spec_high' by lia. change (N.of_nat 31 - 31)%N with 0%N. apply N.b2n_bit0.
    + rewrite N.shiftl_spec_low by lia. cbn [orb]. replace (N.of_nat z + 1)%N with (N.of_nat (S z)) by lia. rewrite word_bit by lia. unfold carry_in, shl. change (2 ^ 5) with 32. rewrite Nat.mod_small by lia. cbn [Nat.leb]. f_equal. lia.
Qed.
Fact addition_case : pop_add 0xFFFFFFFF%N 2%N = (1, 0xFFFFFFFC, 0xFFFFFFFE)%N.
Proof. vm_compute. reflexivity. Qed.
