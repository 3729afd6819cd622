(** Concrete cases for the signed gadgets of C46, in the field with 16 elements. *)
Require Import Coq.ZArith.ZArith Coq.NArith.NArith Coq.Arith.Arith Coq.Lists.List Coq.Bool.Bool Lia.
From Verif Require Import Base.Fld Base.Lists Base.Sums Field.TowerProofs Field.Examples Transparent.ShiftProps.
From Verif Require Import M3.TableModel M3.TableProofs M3.GadgetModel M3.BitLemmas M3.AddProps M3.WideProps M3.MulProps M3.SignedModel M3.SignedProps M3.SignedDiv M3.GadgetEx.
Import ListNotations.
Local Open Scope nat_scope.

Definition W4 (x y : nat) : wit X16 := fun c (_ : nat) => wb 2 [x] [y] c 0.
Lemma W4_x x y : holdn X16 1 2 (W4 x y) (seq 0 2) (fun _ => x).
Proof. intros j Hj i Hi. exact (wb_x 1 2 [x] [y] j Hj 0 ltac:(lia)). Qed.
Lemma W4_sat x y : forall w', agree X16 (length (t_cols X16 (inputs 4 1))) (W4 x y) w' -> satisfies X16 b16 1 w' (inputs 4 1).
Proof. apply inputs_sat. intros. apply wb_bits. Qed.
Lemma empty_sat (w : wit X16) : forall w', agree X16 (length (t_cols X16 (inputs 0 1))) w w' -> satisfies X16 b16 1 w' (inputs 0 1).
Proof. apply inputs_sat. intros c Hc. lia. Qed.

(** The two's complement of 1 in 2 bits is 3. *)
Fact twos_ex : let r := twos_new X16 2 (seq 0 2) (inputs 4 1) in
  exists w, satisfies X16 b16 1 w (snd r) /\ num X16 2 w (seq 0 2) 0 = 1 /\ num X16 2 w (tc_result (fst r)) 0 = 3.
Proof.
  set (r := twos_new X16 2 (seq 0 2) (inputs 4 1)). cbn zeta. assert (LX : below X16 (inputs 4 1) 2 (seq 0 2)) by (apply wb_below; lia).
  destruct (twos_complement_complete X16 X16_char2 b16 2 (seq 0 2) (inputs 4 1) (fst r) (snd r) ltac:(lia) (surjective_pairing _) 1 (W4 1 0) (fun _ => 1) (W4_sat 1 0) LX (W4_x 1 0) ltac:(intros; cbn; lia)) as (w & A & S & H).
  exists w. split; [exact S|]. rewrite (holdn_num X16 1 2 w _ _ 0 (holdn_agree _ _ _ _ _ _ _ _ A LX (W4_x 1 0))), (holdn_num X16 1 2 w _ _ 0 H) by lia. split; reflexivity.
Qed.
(** With the sign bit as condition, 3 = -1 becomes 1. *)
Fact sign_ex : let r := sign_converter_new X16 2 (seq 0 2) (ECol X16 1) (inputs 4 1) in
  exists w, satisfies X16 b16 1 w (snd r) /\ num X16 2 w (seq 0 2) 0 = 3 /\ num X16 2 w (sc_bits (fst r)) 0 = 1.
Proof.
  set (r := sign_converter_new X16 2 (seq 0 2) (ECol X16 1) (inputs 4 1)). cbn zeta. assert (LX : below X16 (inputs 4 1) 2 (seq 0 2)) by (apply wb_below; lia).
  destruct (sign_converter_complete X16 X16_char2 b16 2 (seq 0 2) (ECol X16 1) (inputs 4 1) (fst r) (snd r) ltac:(lia) (surjective_pairing _) 1 (W4 3 0) (fun _ => 3) (fun _ => true) (W4_sat 3 0) LX (W4_x 3 0) ltac:(intros; cbn; lia)) as (w & A & S & H).
  { intros w' A' i Hi. cbn [eeval]. rewrite <- A' by (cbn; lia). exact (W4_x 3 0 1 ltac:(lia) i Hi). }
  exists w. split; [exact S|]. rewrite (holdn_num X16 1 2 w _ _ 0 (holdn_agree _ _ _ _ _ _ _ _ A LX (W4_x 3 0))), (holdn_num X16 1 2 w _ _ 0 H) by lia. split; reflexivity.
Qed.

(** The signed by unsigned multiplier of 2-bit numbers accepts 5 = 1 + 4 * 1 for -1 * 3 (the right answer is 13 = 1 + 4 * 3, which stands
    for -3). *)
Fact mul_su_ex : let r := mul_su_new X16 b16 2 2 g16 (inputs 0 1) in
  (exists w, satisfies X16 b16 1 w (snd r) /\ num X16 2 w (mu_x_bits (fst r)) 0 = 3 /\ num X16 2 w (mu_y_bits (fst r)) 0 = 3 /\ num X16 2 w (mu_low_bits (fst r)) 0 = 1 /\ num X16 2 w (mu_high_bits (fst r)) 0 = 1) /\
  (exists w h, satisfies X16 b16 1 w (snd r) /\ num X16 2 w (mu_x_bits (fst r)) 0 = 3 /\ num X16 2 w (mu_y_bits (fst r)) 0 = 3 /\ num X16 2 w (mu_low_bits (fst r)) 0 = 1 /\ num X16 2 w (mu_high_bits (fst r)) 0 = h mod 4 /\ (1 + 4 * h) mod 16 = 13).
Proof.
  set (r := mul_su_new X16 b16 2 2 g16 (inputs 0 1)). cbn zeta. set (w0 := fun _ _ : nat => f0 : X16). split.
  - destruct (mul_su_refuted X16 X16_char2 b16 2 2 g16 (inputs 0 1) (fst r) (snd r) ltac:(lia) (surjective_pairing _) 1 w0 (fun _ => 3) (fun _ => 3) (fun _ => 1) (empty_sat w0) ltac:(intros; cbn; lia) ltac:(intros; reflexivity) ltac:(intros; reflexivity)) as (w & A & S & HX & HY & HL & HH).
    exists w. split; [exact S|]. rewrite (holdn_num X16 1 2 w _ _ 0 HX), (holdn_num X16 1 2 w _ _ 0 HY), (holdn_num X16 1 2 w _ _ 0 HL), (holdn_num X16 1 2 w _ _ 0 HH) by lia. repeat split; reflexivity.
  - destruct (mul_su_complete X16 X16_char2 b16 2 2 g16 (inputs 0 1) (fst r) (snd r) ltac:(lia) (surjective_pairing _) 1 w0 (fun _ => 3) (fun _ => 3) (empty_sat w0) ltac:(intros; cbn; lia)) as (w & H & A & S & HX & HY & HL & HH & HV).
    exists w, (H 0). split; [exact S|]. rewrite (holdn_num X16 1 2 w _ _ 0 HX), (holdn_num X16 1 2 w _ _ 0 HY), (holdn_num X16 1 2 w _ _ 0 HL), (holdn_num X16 1 2 w _ _ 0 HH) by lia. repeat split.
    specialize (HV 0). change ((3 * 3) mod 2 ^ 2) with 1 in HV. change (2 ^ 2) with 4 in HV. change (2 ^ Z.of_nat (2 * 2))%Z with (Z.of_nat 16) in HV. rewrite <- Nat2Z.inj_mod in HV. change ((sval 2 3 * Z.of_nat 3) mod Z.of_nat 16)%Z with (Z.of_nat 13) in HV. now apply Nat2Z.inj.
Qed.

(** The signed divider of 2-bit numbers: 1 / -2 has quotient 0 and remainder 1; remainder 0 is accepted as well, and -2 / -2 = 1 is
    accepted with remainder -1 but not with remainder 0. *)
Fact div_ss_ex : let r := div_ss_new X16 b16 2 2 g16 (inputs 0 1) in
  let accepts p q d v := exists w, satisfies X16 b16 1 w (snd r) /\ num X16 2 w (e_p_bits (fst r)) 0 = p /\ num X16 2 w (e_q_bits (fst r)) 0 = q /\ num X16 2 w (e_div_bits (fst r)) 0 = d /\ num X16 2 w (e_rem_bits (fst r)) 0 = v in
  accepts 1 2 0 1 /\ accepts 1 2 0 0 /\ accepts 2 2 1 3 /\ ~ accepts 2 2 1 0.
Proof.
  set (r := div_ss_new X16 b16 2 2 g16 (inputs 0 1)). cbn zeta. set (w0 := fun _ _ : nat => f0 : X16). split; [|split; [|split]].
  - destruct (div_ss_complete X16 X16_char2 b16 2 2 g16 (inputs 0 1) (fst r) (snd r) ltac:(lia) (indep16 2 ltac:(lia)) (surjective_pairing _) 1 w0 (fun _ => 1%Z) (fun _ => (-2)%Z) (empty_sat w0) ltac:(intros; cbn; lia)) as (w & A & S & HX & HY & HL & HH).
    exists w. split; [exact S|]. rewrite (holdn_num X16 1 2 w _ _ 0 HX), (holdn_num X16 1 2 w _ _ 0 HY), (holdn_num X16 1 2 w _ _ 0 HL), (holdn_num X16 1 2 w _ _ 0 HH) by lia. repeat split; reflexivity.
  - destruct (div_ss_refuted X16 X16_char2 b16 2 2 g16 (inputs 0 1) (fst r) (snd r) ltac:(lia) (indep16 2 ltac:(lia)) (surjective_pairing _) 1 w0 (fun _ => 1%Z) (fun _ => (-2)%Z) (empty_sat w0) ltac:(intros; cbn; lia)) as (w & A & S & HX & HY & HL & HH).
    exists w. split; [exact S|]. rewrite (holdn_num X16 1 2 w _ _ 0 HX), (holdn_num X16 1 2 w _ _ 0 HY), (holdn_num X16 1 2 w _ _ 0 HL), (holdn_num X16 1 2 w _ _ 0 HH) by lia. repeat split; reflexivity.
  - destruct (div_ss_refuted X16 X16_char2 b16 2 2 g16 (inputs 0 1) (fst r) (snd r) ltac:(lia) (indep16 2 ltac:(lia)) (surjective_pairing _) 1 w0 (fun _ => (-2)%Z) (fun _ => (-2)%Z) (empty_sat w0) ltac:(intros; cbn; lia)) as (w & A & S & HX & HY & HL & HH).
    exists w. split; [exact S|]. rewrite (holdn_num X16 1 2 w _ _ 0 HX), (holdn_num X16 1 2 w _ _ 0 HY), (holdn_num X16 1 2 w _ _ 0 HL), (holdn_num X16 1 2 w _ _ 0 HH) by lia. repeat split; reflexivity.
  - intros (w & S & HP & HQ & HD & HR). pose proof (div_ss_exact_refuted X16 X16_char2 b16 2 2 g16 (inputs 0 1) (fst r) (snd r) ltac:(lia) order16 (surjective_pairing _) 1 w S 0 ltac:(lia)) as K. rewrite HP, HR in K. apply K; reflexivity.
Qed.
