(** C83: the variant of the Keccak-f gadget with lookups. *)
Require Import Coq.NArith.NArith Coq.Arith.Arith Coq.Lists.List Coq.Bool.Bool Lia.
From Verif Require Import M3.KeccakModel M3.KeccakProps.
Import ListNotations.
Local Close Scope N_scope.
Local Open Scope nat_scope.

Definition ok8 (v : N) : Prop := forall i, (8 <= i)%N -> N.testbit v i = false.
Lemma ok8_lt v : (v < 256)%N -> ok8 v.
Proof.
  intros H i Hi. destruct (N.eq_dec v 0) as [->|NZ]; [apply N.bits_0|]. apply N.bits_above_log2. apply N.lt_le_trans with 8%N; [|exact Hi]. apply N.log2_lt_pow2; [lia|exact H].
Qed.
Lemma byte_bit c i j : j < 8 -> N.testbit (byte c i) (N.of_nat j) = c (8 * i + j).
Proof. intros H. unfold byte. rewrite bits_value_bit, (proj2 (Nat.ltb_lt _ _)) by exact H. reflexivity. Qed.
Lemma byte_ok c i : ok8 (byte c i).
Proof. intros k Hk. unfold byte. rewrite <- (N2Nat.id k), bits_value_bit, (proj2 (Nat.ltb_ge _ _)) by lia. reflexivity. Qed.
Lemma ok8_and a b : ok8 a -> ok8 (N.land a b).
Proof. intros A i Hi. now rewrite N.land_spec, A. Qed.
Lemma merged_bits a b o j : ok8 a -> ok8 b -> j < 8 ->
  N.testbit (merged_bytes a b o) (N.of_nat j) = N.testbit a (N.of_nat j) /\ N.testbit (merged_bytes a b o) (N.of_nat j + 8) = N.testbit b (N.of_nat j) /\ N.testbit (merged_bytes a b o) (N.of_nat j + 16) = N.testbit o (N.of_nat j).
Proof.
  intros A B Hj. unfold merged_bytes. rewrite !N.lor_spec. split; [|split].
  - rewrite !N.shiftl_spec_low by lia. now rewrite !orb_false_r.
  - rewrite (N.shiftl_spec_low o) by lia. rewrite N.shiftl_spec_high' by lia. rewrite A by lia. rewrite orb_false_r. cbn [orb]. f_equal. lia.
  - rewrite !N.shiftl_spec_high' by lia. rewrite A, (B (N.of_nat j + 16 - 8)%N) by lia. cbn [orb]. f_equal. lia.
Qed.
(** an entry determines the conjunction of its first two bytes *)
Lemma entry_and a b o j : ok8 a -> ok8 b -> j < 8 -> and_entry8 (merged_bytes a b o) -> N.testbit o (N.of_nat j) = N.testbit a (N.of_nat j) && N.testbit b (N.of_nat j).
Proof.
  intros A B Hj (a' & b' & A' & B' & E). apply ok8_lt in A', B'. destruct (merged_bits a b o j A B Hj) as (E1 & E2 & E3). destruct (merged_bits a' b' (N.land a' b') j A' B' Hj) as (F1 & F2 & F3). rewrite E in E1, E2, E3. rewrite <- E3, F3, N.land_spec, <- E1, <- E2, F1, F2. reflexivity.
Qed.
Lemma ba_b_out sin o o' k : ba_b (round_batch sin o k) = ba_b (round_batch sin o' k). Proof. reflexivity. Qed.
Lemma pos8 p : 8 * (p / 8) + p mod 8 = p. Proof. symmetry. apply Nat.div_mod. lia. Qed.
(** where the reads are answered, the committed columns are the conjunctions *)
Lemma reads_and sin ands k : lk_reads_hold sin ands k -> forall x y p, x < 5 -> y < 5 -> p < 512 ->
  mget zero ands x y p = mget zero (ba_b (round_batch sin [] k)) (x + 1) y p && mget zero (ba_b (round_batch sin [] k)) (x + 2) y p.
Proof.
  intros H x y p Hx Hy Hp. assert (J : p mod 8 < 8) by (apply Nat.mod_upper_bound; lia). specialize (H x y (p / 8) Hx Hy ltac:(apply Nat.div_lt_upper_bound; lia)). unfold lk_read in H. cbv zeta in H. set (b := ba_b _) in *.
  pose proof (entry_and _ _ _ (p mod 8) (byte_ok _ _) (byte_ok _ _) J H) as E. rewrite !byte_bit, pos8 in E by exact J. exact E.
Qed.
Lemma out_round sin ands k : k < 3 -> (forall x y p, x < 5 -> y < 5 -> p < 512 ->
    mget zero ands x y p = mget zero (ba_b (round_batch sin [] k)) (x + 1) y p && mget zero (ba_b (round_batch sin [] k)) (x + 2) y p) ->
  all_zero (ba_zero (round_batch sin (lk_state_out sin ands k) k)).
Proof.
  intros Hk H c p HI Hp. unfold round_batch at 1 in HI. cbn [ba_zero] in HI. apply in_flat_map in HI. destruct HI as (x & Hx & HI). apply in_map_iff in HI. destruct HI as (y & <- & Hy). apply in_seq in Hx, Hy.
  specialize (H x y p ltac:(lia) ltac:(lia) Hp). unfold lk_state_out. cbv zeta. rewrite mget_from by lia. cbn [round_batch ba_b] in H |- *. destruct ((x =? 0) && (y =? 0)); unfold plus, times in *; rewrite H;
    repeat match goal with |- context [mget zero ?m ?u ?v p] => generalize (mget zero m u v p); intro end; try destruct (round_consts k p); repeat match goal with b : bool |- _ => destruct b end; reflexivity.
Qed.
(** C83, soundness of the variant with lookups *)
Theorem keccakf_lookedup_sound sin a0 a1 a2 : lkf_holds sin a0 a1 a2 -> same (bits_of (lkf_output sin a0 a1 a2)) (keccak_f (bits_of (kf_input sin))).
Proof.
  intros (H0 & H1 & H2 & HL). unfold lkf_output. apply (keccakf_sound sin (lk_state_out sin a0 0) (lk_state_out (lk_state_out sin a0 0) a1 1)).
  split; [|split; [|split]]; [apply out_round; [lia|now apply reads_and]..|exact HL].
Qed.

(** * Completeness *)
Section Populate.
  Variable s : list N.
  Hypothesis OK : lanes_ok s.
  Notation ts := (keccakf_trace s).
  Definition agree (a b : list col) : Prop := forall x y p, x < 5 -> y < 5 -> p < 512 -> mget zero a x y p = mget zero b x y p.
  Lemma agree_track a b : agree a b <-> forall t, t < 8 -> same (track t a) (track t b).
  Proof.
    split.
    - intros H t Ht x y z Hx Hy Hz. apply H; lia.
    - intros H x y p Hx Hy. revert p. apply split_pos. intros t z Ht Hz. now apply H.
  Qed.
  Lemma pop_chain k : k < 2 -> agree (pop_out ts k) (pop_in ts (S k)).
  Proof. intros Hk. apply agree_track. intros t Ht. eapply same_trans; [apply (chained s k t Hk Ht)|]. apply same_sym, pop_in_track. Qed.
  Lemma b_agree sin k : k < 3 -> agree sin (pop_in ts k) -> agree (ba_b (round_batch sin [] k)) (pop_b ts k).
  Proof.
    intros Hk H x y p Hx Hy Hp. destruct (keccakf_columns s OK k p Hk Hp) as (_ & E & _). cbv zeta in E. destruct (E x y Hx Hy) as (_ & ->). clear E. revert p Hp. apply split_pos. intros t z Ht Hz. rewrite !bb_bit by assumption.
    unfold pi_step, rho_step. apply theta_same; auto using mod5, mod64. apply agree_track; assumption.
  Qed.
  Lemma ands_agree sin k : k < 3 -> agree sin (pop_in ts k) -> forall x y p, x < 5 -> y < 5 -> p < 512 ->
    mget zero (lk_pop_and ts k) x y p = mget zero (ba_b (round_batch sin [] k)) (x + 1) y p && mget zero (ba_b (round_batch sin [] k)) (x + 2) y p.
  Proof.
    intros Hk H x y p Hx Hy Hp. assert (J : p mod 8 < 8) by (apply Nat.mod_upper_bound; lia). unfold lk_pop_and. rewrite mget_from by assumption. rewrite N.land_spec, !byte_bit, pos8 by exact J.
    rewrite !(mget_mod _ _ (x + _)), !(Nat.mod_small y) by assumption. now rewrite !(b_agree sin k Hk H) by auto using mod5.
  Qed.
  Lemma reads_ok sin k : k < 3 -> agree sin (pop_in ts k) -> lk_reads_hold sin (lk_pop_and ts k) k.
  Proof.
    intros Hk H x y i Hx Hy Hi. unfold lk_read. cbv zeta. set (b := ba_b _). exists (byte (mget zero b (x + 1) y) i), (byte (mget zero b (x + 2) y) i).
    assert (S : forall c, (byte c i < 256)%N).
    { intros c. destruct (N.eq_dec (byte c i) 0) as [->|NZ]; [reflexivity|]. apply (N.log2_lt_pow2 _ 8); [lia|]. destruct (N.lt_ge_cases (N.log2 (byte c i)) 8) as [LT|GE]; [exact LT|]. pose proof (byte_ok c i _ GE) as E. rewrite N.bit_log2 in E by exact NZ. discriminate. }
    split; [apply S|]. split; [apply S|]. f_equal. apply N.bits_inj. intros j. destruct (N.lt_ge_cases j 8) as [LT|GE]; [|rewrite byte_ok, ok8_and by (auto using byte_ok); reflexivity].
    rewrite <- (N2Nat.id j), N.land_spec, !byte_bit by lia. apply ands_agree; auto; lia.
  Qed.
  Lemma out_agree sin k : k < 3 -> agree sin (pop_in ts k) -> agree (lk_state_out sin (lk_pop_and ts k) k) (pop_out ts k).
  Proof.
    intros Hk H. apply agree_track. pose proof (out_round sin (lk_pop_and ts k) k Hk (ands_agree sin k Hk H)) as Z. rewrite batch_correct in Z by exact Hk. intros t Ht. eapply same_trans; [apply (Z t Ht)|].
    apply same_sym. eapply same_trans; [apply pop_out_track|]. eapply same_trans; [apply (lens_round s OK k t Hk Ht)|]. apply round_same. apply same_sym. eapply same_trans; [|apply pop_in_track]. now apply agree_track.
  Qed.
  Lemma agree_trans a b c : agree a b -> agree b c -> agree a c.
  Proof. intros H K x y p Hx Hy Hp. now rewrite H, K. Qed.
  (** C83, completeness of the variant with lookups: the reads of the populated columns are answered by the table, the links hold, and the computed output columns are the populated ones. *)
  Theorem keccakf_lookedup_complete : let sin := pop_in ts 0 in let a := lk_pop_and ts in
    lkf_holds sin (a 0) (a 1) (a 2) /\ same (bits_of (kf_input sin)) (bits_of s) /\ same (bits_of (lkf_output sin (a 0) (a 1) (a 2))) (keccak_f (bits_of s)) /\
    let o0 := lk_state_out sin (a 0) 0 in let o1 := lk_state_out o0 (a 1) 1 in let o2 := lk_state_out o1 (a 2) 2 in
    agree o0 (pop_out ts 0) /\ agree o1 (pop_out ts 1) /\ agree o2 (pop_out ts 2).
  Proof.
    cbv zeta. assert (A0 : agree (pop_in ts 0) (pop_in ts 0)) by (intros x y p _ _ _; reflexivity).
    pose proof (out_agree _ 0 ltac:(lia) A0) as O0. pose proof (agree_trans _ _ _ O0 (pop_chain 0 ltac:(lia))) as A1.
    pose proof (out_agree _ 1 ltac:(lia) A1) as O1. pose proof (agree_trans _ _ _ O1 (pop_chain 1 ltac:(lia))) as A2. pose proof (out_agree _ 2 ltac:(lia) A2) as O2.
    destruct (keccakf_complete s OK) as (K & I & _). cbv zeta in *.
    assert (L : lkf_holds (pop_in ts 0) (lk_pop_and ts 0) (lk_pop_and ts 1) (lk_pop_and ts 2)).
    { split; [|split; [|split]]; [apply reads_ok; [lia|assumption]..|]. destruct K as (_ & _ & _ & HL). rewrite links in HL. apply links. intros t Ht. eapply same_trans; [|apply (HL t Ht)]. apply agree_track; [exact O2|lia]. }
    split; [exact L|]. split; [exact I|]. split; [|auto]. exact (same_trans _ _ _ (keccakf_lookedup_sound _ _ _ _ L) (rounds_same (seq 0 24) _ _ I)).
  Qed.
End Populate.
Fact zero_lookedup : let ts := keccakf_trace (repeat 0%N 25) in lkf_holds (pop_in ts 0) (lk_pop_and ts 0) (lk_pop_and ts 1) (lk_pop_and ts 2).
Proof. apply (keccakf_lookedup_complete _ zero_lanes). Qed.
