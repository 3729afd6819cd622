(** Concrete cases for the gadget theorems of C46, in the field with 16 elements: tables with committed input columns, and
    witnesses that satisfy them. *)
Require Import Coq.ZArith.ZArith Coq.NArith.NArith Coq.Arith.Arith Coq.Lists.List Coq.Bool.Bool Lia.
From Verif Require Import Base.Fld Base.Lists Base.Sums Field.TowerProofs Field.Examples Transparent.ShiftProps.
From Verif Require Import M3.TableModel M3.TableProofs M3.GadgetModel M3.BitLemmas M3.AddProps M3.WideProps M3.MulProps M3.BarrelProps.
Import ListNotations.
Local Open Scope nat_scope.

(** The basis 1, 2, 4, 8 of the field over the bits. *)
Definition b16 (j : nat) : X16 := el (2 ^ N.of_nat j)%N.
Definition g16 : X16 := el 5.

(** [k] committed bit columns with [v] values per row *)
Definition inputs (k v : nat) : table X16 := mkTable X16 (repeat (v, DCommitted X16 true) k) [] [].
Lemma inputs_sat k v n (w : wit X16) : (forall c, c < k -> forall i, isbit X16 (w c i)) -> forall w', agree X16 (length (t_cols X16 (inputs k v))) w w' -> satisfies X16 b16 n w' (inputs k v).
Proof.
  intros H w' A. cbn [inputs t_cols] in A. rewrite repeat_length in A. split; [|split; constructor]. intros id vd E. cbn [inputs t_cols] in E.
  assert (L : id < k) by (apply nth_error_lt in E; now rewrite repeat_length in E).
  apply nth_error_In, repeat_spec in E. subst vd. intros i _ _. rewrite <- A by exact L. now apply H.
Qed.

Lemma order16 : has_order X16 g16 15.
Proof.
  split; [apply (f_eqb X16); vm_compute; reflexivity|]. intros a Ha E.
  assert (K : forallb (fun a => negb (feqb (fpow g16 a) f1)) (seq 1 14) = true) by (vm_compute; reflexivity).
  rewrite forallb_forall in K. specialize (K a ltac:(apply in_seq; lia)). rewrite E, feqb_refl in K. discriminate.
Qed.
Lemma indep16 m : m <= 4 -> basis_indep X16 b16 m.
Proof.
  intros Hm f Hf E j Hj. 
  assert (K : forallb (fun q => let v := fun j => if Nat.testbit q j then f1 : X16 else f0 in implb (feqb (packed X16 b16 m v) f0) (forallb (fun j => negb (Nat.testbit q j)) (seq 0 m))) (seq 0 16) = true).
  { assert (m = 0 \/ m = 1 \/ m = 2 \/ m = 3 \/ m = 4) as [-> | [-> | [-> | [-> | ->]]]] by lia; vm_compute; reflexivity. }
  pose proof (bits_of_num X16 f m (bnum X16 f m) (fun j _ => Hf j) eq_refl) as B.
  assert (L : bnum X16 f m < 16) by (eapply Nat.lt_le_trans; [apply bnum_bound|]; apply (Nat.pow_le_mono_r 2 m 4); lia).
  rewrite forallb_forall in K. specialize (K _ ltac:(apply in_seq; split; [apply Nat.le_0_l|exact L])). cbv zeta in K.
  replace (packed X16 b16 m (fun j => if Nat.testbit (bnum X16 f m) j then f1 else f0)) with (f0 : X16) in K.
  - rewrite feqb_refl in K. cbn [implb] in K. rewrite forallb_forall in K. specialize (K j ltac:(apply in_seq; lia)). rewrite B by exact Hj. unfold tb. destruct (Nat.testbit (bnum X16 f m) j); [discriminate|reflexivity].
  - etransitivity; [symmetry; exact E|]. apply sumn_ext. intros k Hk. rewrite B by exact Hk. reflexivity.
Qed.

Definition nx (l : list nat) (k : nat) : nat := nth k l 0.
(** two columns with packed 4-bit words *)
Definition wp (x y : list nat) : wit X16 := fun c i => if c =? 0 then pcol X16 2 (nx x) i else pcol X16 2 (nx y) i.
Lemma wp_bits x y c i : isbit X16 (wp x y c i). Proof. unfold wp. destruct (c =? 0); apply tb_bit. Qed.
Lemma wp_holds0 x y n q : holds X16 2 n q (wp x y) 0 (nx x). Proof. intros k Hk j Hj. unfold wp. cbn [Nat.eqb]. now rewrite pcol_at. Qed.
Lemma wp_holds1 x y n q : holds X16 2 n q (wp x y) 1 (nx y). Proof. intros k Hk j Hj. unfold wp. cbn [Nat.eqb]. now rewrite pcol_at. Qed.
Lemma holds_word n q w c X k : holds X16 2 n q w c X -> k < n * q -> word X16 2 w c k = X k mod 16.
Proof. intros H Hk. unfold word. change 16 with (2 ^ 2 ^ 2). rewrite <- (bnum_tb X16 (X k) (2 ^ 2)). apply bnum_ext. intros j Hj. now apply H. Qed.

(** 13 + 5 = 2 with a carry, and 6 + 7 = 13 without. *)
Fact u32_add_ex : let r := u32_add_new X16 2 4 0 1 (mkAddFlags None true true) (inputs 2 4) in
  exists w, satisfies X16 b16 2 w (snd r) /\ word X16 2 w 0 0 = 13 /\ word X16 2 w 1 0 = 5 /\ word X16 2 w (a_zout (fst r)) 0 = 2 /\ word X16 2 w (a_zout (fst r)) 1 = 13.
Proof.
  set (r := u32_add_new X16 2 4 0 1 (mkAddFlags None true true) (inputs 2 4)). cbn zeta.
  destruct (u32_add_complete X16 X16_char2 b16 2 1 0 1 (mkAddFlags None true true) (inputs 2 4) (fst r) (snd r) (surjective_pairing _) (fun _ => eq_refl) 2 (wp [13; 6] [5; 7]) (nx [13; 6]) (nx [5; 7]) (fun _ => 0)
    ltac:(apply inputs_sat; intros; apply wp_bits) ltac:(cbn; lia) ltac:(cbn; lia) (wp_holds0 _ _ _ _) (wp_holds1 _ _ _ _) (fun _ => eq_refl)) as (w & A & S & H).
  { intros k Hk. destruct k as [|[|k]]; [| |cbn in Hk; lia]; cbn; lia. }
  exists w. split; [exact S|].
  assert (W0 : word X16 2 w 0 0 = 13).
  { rewrite (holds_word 2 1 w 0 (nx [13; 6])); [reflexivity| |lia]. intros k Hk j Hj. rewrite <- A by (cbn; lia). now apply wp_holds0 with (n := 2) (q := 1). }
  assert (W1 : word X16 2 w 1 0 = 5).
  { rewrite (holds_word 2 1 w 1 (nx [5; 7])); [reflexivity| |lia]. intros k Hk j Hj. rewrite <- A by (cbn; lia). now apply wp_holds1 with (n := 2) (q := 1). }
  split; [exact W0|]. split; [exact W1|].
  assert (R : forall k, k < 2 -> word X16 2 w (a_zout (fst r)) k = (nx [13; 6] k + nx [5; 7] k) mod 16).
  { intros k Hk. specialize (H k ltac:(lia)). destruct (u32_add_populate (2 ^ 2) (nx [13; 6] k) (nx [5; 7] k) 0) as [[[z ci] co] cy]. destruct H as (Hz & _ & Hj & _). unfold word. rewrite (bnum_ext X16 _ (tb X16 z) (2 ^ 2)); [|intros j Hj'; now apply Hj].
    rewrite bnum_tb, Hz, Nat.add_0_r. change (2 ^ 2 ^ 2) with 16. rewrite Nat.mod_mod by lia. reflexivity. }
  split; [now rewrite R by lia|now rewrite R by lia].
Qed.

(** 6 - 7 = 15 with a borrow. *)
Fact u32_sub_ex : let r := u32_sub_new X16 2 4 0 1 (mkSubFlags None false true) (inputs 2 4) in
  exists w, satisfies X16 b16 2 w (snd r) /\ word X16 2 w 0 1 = 6 /\ word X16 2 w 1 1 = 7 /\ word X16 2 w (s_zout (fst r)) 1 = 15.
Proof.
  set (r := u32_sub_new X16 2 4 0 1 (mkSubFlags None false true) (inputs 2 4)). cbn zeta.
  destruct (u32_sub_complete X16 X16_char2 b16 2 1 0 1 (mkSubFlags None false true) (inputs 2 4) (fst r) (snd r) (surjective_pairing _) (fun _ => eq_refl) 2 (wp [13; 6] [5; 7]) (nx [13; 6]) (nx [5; 7]) (fun _ => 0)
    ltac:(apply inputs_sat; intros; apply wp_bits) ltac:(cbn; lia) ltac:(cbn; lia) (wp_holds0 _ _ _ _) (wp_holds1 _ _ _ _) (fun _ => eq_refl)) as (w & A & S & H).
  { intros k Hk. destruct k as [|[|k]]; [| |cbn in Hk; lia]; cbn; lia. }
  exists w. split; [exact S|].
  assert (W0 : word X16 2 w 0 1 = 6).
  { rewrite (holds_word 2 1 w 0 (nx [13; 6])); [reflexivity| |lia]. intros k Hk j Hj. rewrite <- A by (cbn; lia). now apply wp_holds0 with (n := 2) (q := 1). }
  assert (W1 : word X16 2 w 1 1 = 7).
  { rewrite (holds_word 2 1 w 1 (nx [5; 7])); [reflexivity| |lia]. intros k Hk j Hj. rewrite <- A by (cbn; lia). now apply wp_holds1 with (n := 2) (q := 1). }
  split; [exact W0|]. split; [exact W1|]. specialize (H 1 ltac:(lia)).
  destruct (u32_sub_populate (2 ^ 2) (nx [13; 6] 1) (nx [5; 7] 1) 0) as [[[z ci] co] cy]. destruct H as (Hz & Hs & Hj & _). unfold word. rewrite (bnum_ext X16 _ (tb X16 z) (2 ^ 2)); [|intros j Hj'; now apply Hj].
  rewrite bnum_tb. cbn in Hz, Hs |- *. destruct cy; replace z with 15 by lia; reflexivity.
Qed.

(** 2m columns with the bits of two numbers *)
Definition wb (m : nat) (x y : list nat) : wit X16 := fun c i => if c <? m then tb X16 (nx x i) c else tb X16 (nx y i) (c - m).
Lemma wb_bits m x y c i : isbit X16 (wb m x y c i). Proof. unfold wb. destruct (c <? m); apply tb_bit. Qed.
Lemma seq_nthc s m j : j < m -> nthc (seq s m) j = s + j. Proof. intros H. unfold nthc. now rewrite seq_nth. Qed.
Lemma wb_x n m x y : holdn X16 n m (wb m x y) (seq 0 m) (nx x).
Proof. intros j Hj i Hi. rewrite seq_nthc by auto. unfold wb. cbn [Nat.add]. destruct (Nat.ltb_spec j m); [reflexivity|lia]. Qed.
Lemma wb_y n m x y : holdn X16 n m (wb m x y) (seq m m) (nx y).
Proof. intros j Hj i Hi. rewrite seq_nthc by auto. unfold wb. destruct (Nat.ltb_spec (m + j) m); [lia|]. f_equal. lia. Qed.
Lemma wb_below k s m v : s + m <= k -> below X16 (inputs k v) m (seq s m).
Proof. intros H j Hj. cbn [inputs t_cols]. rewrite repeat_length, seq_nthc by auto. lia. Qed.
Lemma holdn_agree n m k v w w' l X : agree X16 (length (t_cols X16 (inputs k v))) w w' -> below X16 (inputs k v) m l -> holdn X16 n m w l X -> holdn X16 n m w' l X.
Proof. intros A B H j Hj i Hi. rewrite <- A by (now apply B). now apply H. Qed.

(** 3 * 2 = 6 = 2 + 4 * 1 for 2-bit numbers. *)
Fact mul_ex : let r := mul_with_inputs X16 b16 2 g16 (seq 0 2) (seq 2 2) (inputs 4 1) in
  exists w, satisfies X16 b16 1 w (snd r) /\ bitcols X16 1 2 w (seq 0 2) /\ bitcols X16 1 2 w (seq 2 2) /\
    num X16 2 w (seq 0 2) 0 = 3 /\ num X16 2 w (seq 2 2) 0 = 2 /\ num X16 2 w (m_low_bits (fst r)) 0 = 2 /\ num X16 2 w (m_high_bits (fst r)) 0 = 1 /\ has_order X16 g16 (2 ^ (2 * 2) - 1).
Proof.
  set (r := mul_with_inputs X16 b16 2 g16 (seq 0 2) (seq 2 2) (inputs 4 1)). cbn zeta.
  destruct (mul_complete X16 X16_char2 b16 2 g16 (seq 0 2) (seq 2 2) (inputs 4 1) (fst r) (snd r) ltac:(lia) eq_refl eq_refl (surjective_pairing _) 1 (wb 2 [3] [2]) (nx [3]) (nx [2])
    ltac:(apply inputs_sat; intros; apply wb_bits) ltac:(apply wb_below; lia) ltac:(apply wb_below; lia) (wb_x _ _ _ _) (wb_y _ _ _ _)) as (w & A & S & HL & HH).
  { intros i Hi. replace i with 0 by lia. cbn. lia. }
  assert (HX := holdn_agree 1 2 4 1 _ _ _ _ A (wb_below 4 0 2 1 ltac:(lia)) (wb_x 1 2 [3] [2])). assert (HY := holdn_agree 1 2 4 1 _ _ _ _ A (wb_below 4 2 2 1 ltac:(lia)) (wb_y 1 2 [3] [2])).
  exists w. split; [exact S|]. split; [intros j Hj i Hi; rewrite HX by auto; apply tb_bit|]. split; [intros j Hj i Hi; rewrite HY by auto; apply tb_bit|].
  rewrite (holdn_num X16 1 2 w _ _ 0 HX), (holdn_num X16 1 2 w _ _ 0 HY), (holdn_num X16 1 2 w _ _ 0 HL), (holdn_num X16 1 2 w _ _ 0 HH) by lia. repeat split; try reflexivity; apply order16.
Qed.

(** The divider accepts the quotient 0 of 13 by 5 (and the right quotient 2 with remainder 3) for 4-bit numbers. *)
Fact div_uu_ex : let r := div_uu_new X16 b16 2 4 g16 (empty X16) in
  (exists w, satisfies X16 b16 1 w (snd r) /\ holdn X16 1 4 w (d_p_bits (fst r)) (fun _ => 13) /\ holdn X16 1 4 w (d_q_bits (fst r)) (fun _ => 5) /\ holdn X16 1 4 w (d_div_bits (fst r)) (fun _ => 2) /\ holdn X16 1 4 w (d_rem_bits (fst r)) (fun _ => 3)) /\
  (exists w, satisfies X16 b16 1 w (snd r) /\ holdn X16 1 4 w (d_p_bits (fst r)) (fun _ => 13) /\ holdn X16 1 4 w (d_q_bits (fst r)) (fun _ => 5) /\ holdn X16 1 4 w (d_div_bits (fst r)) (fun _ => 0)).
Proof.
  set (r := div_uu_new X16 b16 2 4 g16 (empty X16)). cbn zeta.
  assert (S0 : forall w : wit X16, satisfies X16 b16 1 w (empty X16)) by (intros w; split; [intros [|id] vd E; discriminate|split; constructor]). split.
  - destruct (div_uu_complete X16 X16_char2 b16 2 4 g16 (empty X16) (fst r) (snd r) ltac:(lia) (indep16 4 ltac:(lia)) (surjective_pairing _) 1 (fun _ _ => f0) (fun _ => 13) (fun _ => 5) ltac:(auto) ltac:(intros; cbn; lia)) as (w & _ & S & H1 & H2 & H3 & H4).
    exists w. repeat split; try apply S; assumption.
  - destruct (div_uu_refuted X16 X16_char2 b16 2 4 g16 (empty X16) (fst r) (snd r) ltac:(lia) (indep16 4 ltac:(lia)) (surjective_pairing _) 1 (fun _ _ => f0) (fun _ => 13) (fun _ => 5) ltac:(auto) ltac:(intros; cbn; lia)) as (w & _ & S & H1 & H2 & H3 & H4).
    exists w. repeat split; try apply S; assumption.
Qed.

(** WideAdd accepts 3 + 6 = 10; WideSub accepts 6 - 3 = 13 (the right answer is 3). *)
Fact wide_add_ex : let r := wide_add_new X16 2 4 (seq 0 4) (seq 4 4) (mkAddFlags None true false) (inputs 8 1) in
  exists w, satisfies X16 b16 1 w (snd r) /\ num X16 4 w (seq 0 4) 0 = 3 /\ num X16 4 w (seq 4 4) 0 = 6 /\ num X16 4 w (wa_zout (fst r)) 0 + 16 * b2n X16 (w (wa_final_carry (fst r)) 0) = 10.
Proof.
  set (r := wide_add_new X16 2 4 (seq 0 4) (seq 4 4) (mkAddFlags None true false) (inputs 8 1)). cbn zeta.
  destruct (wide_add_carry_refuted X16 X16_char2 b16 2 4 (seq 0 4) (seq 4 4) (mkAddFlags None true false) (inputs 8 1) (fst r) (snd r) ltac:(lia) eq_refl (surjective_pairing _) 1 (wb 4 [3] [6])
    ltac:(apply inputs_sat; intros; apply wb_bits) ltac:(apply wb_below; lia) ltac:(apply wb_below; lia) ltac:(intros j _ i _; apply wb_bits) ltac:(intros j _ i _; apply wb_bits)) as (w & A & S & H).
  assert (HX := holdn_agree 1 4 8 1 _ _ _ _ A (wb_below 8 0 4 1 ltac:(lia)) (wb_x 1 4 [3] [6])). assert (HY := holdn_agree 1 4 8 1 _ _ _ _ A (wb_below 8 4 4 1 ltac:(lia)) (wb_y 1 4 [3] [6])).
  exists w. split; [exact S|]. specialize (H 0 ltac:(lia)). rewrite (holdn_num X16 1 4 w _ _ 0 HX) in H |- * by lia. rewrite (holdn_num X16 1 4 w _ _ 0 HY) in H |- * by lia.
  split; [reflexivity|]. split; [reflexivity|]. change (2 ^ 4) with 16 in H. rewrite <- H. reflexivity.
Qed.
Fact wide_sub_ex : let r := wide_sub_new X16 2 4 (seq 0 4) (seq 4 4) (mkSubFlags None true false) (inputs 8 1) in
  exists w, satisfies X16 b16 1 w (snd r) /\ num X16 4 w (seq 0 4) 0 = 6 /\ num X16 4 w (seq 4 4) 0 = 3 /\ num X16 4 w (ws_zout (fst r)) 0 = 13.
Proof.
  set (r := wide_sub_new X16 2 4 (seq 0 4) (seq 4 4) (mkSubFlags None true false) (inputs 8 1)). cbn zeta.
  destruct (wide_sub_refuted X16 X16_char2 b16 2 4 (seq 0 4) (seq 4 4) (mkSubFlags None true false) (inputs 8 1) (fst r) (snd r) ltac:(lia) eq_refl (surjective_pairing _) 1 (wb 4 [6] [3]) (fun j _ => tb X16 6 j) (fun j _ => tb X16 3 j)
    ltac:(apply inputs_sat; intros; apply wb_bits) ltac:(apply wb_below; lia) ltac:(apply wb_below; lia)
    ltac:(intros j Hj i Hi; rewrite (wb_x 1 4 [6] [3] j Hj i Hi); now replace i with 0 by lia) ltac:(intros j Hj i Hi; rewrite (wb_y 1 4 [6] [3] j Hj i Hi); now replace i with 0 by lia) ltac:(intros; apply tb_bit) ltac:(intros; apply tb_bit)
    (fun j _ => tb X16 13 j) ltac:(intros; apply tb_bit)) as (w & A & S & H).
  { intros i. apply (f_eqb X16). vm_compute. reflexivity. }
  assert (HX := holdn_agree 1 4 8 1 _ _ _ _ A (wb_below 8 0 4 1 ltac:(lia)) (wb_x 1 4 [6] [3])). assert (HY := holdn_agree 1 4 8 1 _ _ _ _ A (wb_below 8 4 4 1 ltac:(lia)) (wb_y 1 4 [6] [3])).
  exists w. split; [exact S|]. rewrite (holdn_num X16 1 4 w _ _ 0 HX) by lia. rewrite (holdn_num X16 1 4 w _ _ 0 HY) by lia.
  rewrite (holdn_num X16 1 4 w (ws_zout (fst r)) (fun _ => 13) 0 H) by lia. repeat split; reflexivity.
Qed.
(** 7 + 1 = 8 *)
Fact incr_ex : let r := incr_new X16 4 (seq 0 4) (inputs 8 1) in
  exists w, satisfies X16 b16 1 w (snd r) /\ bitcols X16 1 4 w (seq 0 4) /\ num X16 4 w (seq 0 4) 0 = 7 /\ num X16 4 w (i_zout (fst r)) 0 = 8.
Proof.
  set (r := incr_new X16 4 (seq 0 4) (inputs 8 1)). cbn zeta.
  destruct (incr_complete X16 X16_char2 b16 4 (seq 0 4) (inputs 8 1) (fst r) (snd r) ltac:(lia) (surjective_pairing _) 1 (wb 4 [7] [3])
    ltac:(apply inputs_sat; intros; apply wb_bits) ltac:(apply wb_below; lia) ltac:(intros j _ i _; apply wb_bits)) as (w & A & S).
  assert (HX := holdn_agree 1 4 8 1 _ _ _ _ A (wb_below 8 0 4 1 ltac:(lia)) (wb_x 1 4 [7] [3])).
  assert (BX : bitcols X16 1 4 w (seq 0 4)) by (intros j Hj i Hi; rewrite HX by auto; apply tb_bit).
  destruct (incr_sound X16 X16_char2 b16 4 (seq 0 4) (inputs 8 1) (fst r) (snd r) ltac:(lia) (surjective_pairing _) 1 w S BX) as [_ H]. specialize (H 0 ltac:(lia)).
  exists w. split; [exact S|]. split; [exact BX|]. rewrite (holdn_num X16 1 4 w _ _ 0 HX) in H |- * by lia. split; [reflexivity|].
  pose proof (bnum_bound X16 (fun j => w (nthc (i_zout (fst r)) j) 0) 4) as B. fold (num X16 4 w (i_zout (fst r)) 0) in B. cbn [Nat.pow nx nth] in H, B. change (7 mod (2 * (2 * (2 * (2 * 1)))) + 1) with 8 in H. lia.
Qed.
(** Rotating 13 = 1101 left by 3 gives 14 = 1110. *)
Fact barrel_ex : let r := barrel_new X16 2 2 0 1 CircularLeft (inputs 2 4) in
  exists w, satisfies X16 b16 1 w (snd r) /\ basis_indep X16 b16 (2 ^ 2) /\ word X16 2 w 0 0 = 13 /\ bnum X16 (fun i => w 1 i) 2 = 3 /\ word X16 2 w (b_output (fst r)) 0 = 14.
Proof.
  set (r := barrel_new X16 2 2 0 1 CircularLeft (inputs 2 4)). cbn zeta.
  destruct (barrel_complete X16 X16_char2 b16 2 2 0 1 CircularLeft (inputs 2 4) (fst r) (snd r) (surjective_pairing _) 1 (wp [13] [3]) (nx [13]) (nx [3])
    ltac:(apply inputs_sat; intros; apply wp_bits) ltac:(cbn; lia) ltac:(cbn; lia)) as (w & A & S & H).
  { intros k Hk. replace k with 0 by lia. cbn. lia. }
  { apply wp_holds0. }
  { intros k i Hk Hi. replace k with 0 by lia. unfold wp. cbn [Nat.eqb]. apply (pcol_at X16 2 (nx [3]) 0 i). cbn. lia. }
  exists w. split; [exact S|]. split; [apply indep16; cbn; lia|].
  rewrite (holds_word 1 1 w 0 (nx [13])); [|intros k Hk j Hj; rewrite <- A by (cbn; lia); now apply wp_holds0 with (n := 1) (q := 1)|lia].
  rewrite (holds_word 1 1 w _ _ 0 H) by lia. split; [reflexivity|]. split; [|reflexivity].
  rewrite (bnum_ext X16 _ (tb X16 3) 2); [apply (bnum_tb X16 3 2)|]. intros j Hj. rewrite <- A by (cbn; lia). unfold wp. cbn [Nat.eqb]. exact (pcol_at X16 2 (nx [3]) 0 j ltac:(cbn; lia)).
Qed.
(** The signed multiplier of 2-bit numbers accepts 7 = 3 + 4 * 1 for -1 * 1 (the right answer is 15 = 3 + 4 * 3, which stands for -1). *)
Fact mul_ss_ex : let r := mul_ss_with_input X16 b16 2 2 g16 (seq 0 2) (seq 2 2) (inputs 4 1) in
  (exists w, satisfies X16 b16 1 w (snd r) /\ num X16 2 w (seq 0 2) 0 = 3 /\ num X16 2 w (seq 2 2) 0 = 1 /\ num X16 2 w (ms_low_bits (fst r)) 0 = 3 /\ num X16 2 w (ms_high_bits (fst r)) 0 = 1) /\
  (exists w h, satisfies X16 b16 1 w (snd r) /\ num X16 2 w (seq 0 2) 0 = 3 /\ num X16 2 w (seq 2 2) 0 = 1 /\ num X16 2 w (ms_low_bits (fst r)) 0 = 3 /\ num X16 2 w (ms_high_bits (fst r)) 0 = h mod 4 /\ (3 + 4 * h) mod 16 = 15).
Proof.
  set (r := mul_ss_with_input X16 b16 2 2 g16 (seq 0 2) (seq 2 2) (inputs 4 1)). cbn zeta. set (W := fun c (_ : nat) => wb 2 [3] [1] c 0).
  assert (WX : holdn X16 1 2 W (seq 0 2) (fun _ => 3)) by (intros j Hj i Hi; exact (wb_x 1 2 [3] [1] j Hj 0 ltac:(lia))).
  assert (WY : holdn X16 1 2 W (seq 2 2) (fun _ => 1)) by (intros j Hj i Hi; exact (wb_y 1 2 [3] [1] j Hj 0 ltac:(lia))).
  assert (WS : forall w', agree X16 (length (t_cols X16 (inputs 4 1))) W w' -> satisfies X16 b16 1 w' (inputs 4 1)) by (apply inputs_sat; intros; apply wb_bits).
  assert (LX : below X16 (inputs 4 1) 2 (seq 0 2)) by (apply wb_below; lia). assert (LY : below X16 (inputs 4 1) 2 (seq 2 2)) by (apply wb_below; lia). split.
  - destruct (mul_ss_refuted X16 X16_char2 b16 2 2 g16 (seq 0 2) (seq 2 2) (inputs 4 1) (fst r) (snd r) ltac:(lia) eq_refl eq_refl (surjective_pairing _) 1 W (fun _ => 3) (fun _ => 1) (fun _ => 1) WS LX LY WX WY
      ltac:(intros; cbn; lia) ltac:(intros; split; reflexivity) ltac:(intros; reflexivity)) as (w & A & S & HL & HH).
    exists w. split; [exact S|]. rewrite (holdn_num X16 1 2 w _ _ 0 (holdn_agree _ _ _ _ _ _ _ _ A LX WX)), (holdn_num X16 1 2 w _ _ 0 (holdn_agree _ _ _ _ _ _ _ _ A LY WY)), (holdn_num X16 1 2 w _ _ 0 HL), (holdn_num X16 1 2 w _ _ 0 HH) by lia. repeat split; reflexivity.
  - destruct (mul_ss_complete X16 X16_char2 b16 2 2 g16 (seq 0 2) (seq 2 2) (inputs 4 1) (fst r) (snd r) ltac:(lia) eq_refl eq_refl (surjective_pairing _) 1 W (fun _ => 3) (fun _ => 1) WS LX LY WX WY ltac:(intros; cbn; lia)) as (w & H & A & S & HL & HH & HV).
    exists w, (H 0). split; [exact S|]. rewrite (holdn_num X16 1 2 w _ _ 0 (holdn_agree _ _ _ _ _ _ _ _ A LX WX)), (holdn_num X16 1 2 w _ _ 0 (holdn_agree _ _ _ _ _ _ _ _ A LY WY)), (holdn_num X16 1 2 w _ _ 0 HL), (holdn_num X16 1 2 w _ _ 0 HH) by lia. repeat split.
    specialize (HV 0). change ((3 * 1) mod 2 ^ 2) with 3 in HV. change (2 ^ 2) with 4 in HV. change (2 ^ Z.of_nat (2 * 2))%Z with (Z.of_nat 16) in HV. rewrite <- Nat2Z.inj_mod in HV. change ((sval 2 3 * sval 2 1) mod Z.of_nat 16)%Z with (Z.of_nat 15) in HV. now apply Nat2Z.inj.
Qed.
