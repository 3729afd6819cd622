(** Carries of binary addition and subtraction, for the M3 gadgets. *)
Require Import Coq.Arith.Arith Coq.Lists.List Coq.Bool.Bool Lia.
From Verif Require Import Base.Fld Base.Lists Base.Sums M3.TableModel M3.GadgetModel.
Local Open Scope nat_scope.

Definition maj (a b c : bool) : bool := (a && b) || (c && (a || b)).

Lemma testbit_high a m j : a < 2 ^ m -> m <= j -> Nat.testbit a j = false.
Proof. intros H L. apply Nat.testbit_false. rewrite Nat.div_small; [reflexivity|]. eapply Nat.lt_le_trans; [exact H|]. apply Nat.pow_le_mono_r; lia. Qed.
Lemma testbit_top s m : s < 2 * 2 ^ m -> Nat.testbit s m = (2 ^ m <=? s).
Proof.
  intros H. destruct (Nat.leb_spec (2 ^ m) s) as [L|L]; [|apply (testbit_high s m); lia].
  apply Nat.testbit_true. replace (s / 2 ^ m) with 1; [reflexivity|]. apply (Nat.div_unique s (2 ^ m) 1 (s - 2 ^ m)); lia.
Qed.
Lemma testbit_div2' a j : Nat.testbit (a / 2) j = Nat.testbit a (S j).
Proof. rewrite <- Nat.div2_div, Nat.div2_spec, Nat.shiftr_spec', Nat.add_1_r. reflexivity. Qed.

(** The carries of [a + b + c0]. *)
Lemma carries m a b (c0 : bool) : a < 2 ^ m -> b < 2 ^ m -> exists c,
  (forall j, Nat.testbit (a + b + Nat.b2n c0) j = xorb (xorb (Nat.testbit a j) (Nat.testbit b j)) (Nat.testbit c j)) /\
  Nat.testbit c 0 = c0 /\ (forall j, Nat.testbit c (S j) = maj (Nat.testbit a j) (Nat.testbit b j) (Nat.testbit c j)) /\
  Nat.testbit c m = (2 ^ m <=? a + b + Nat.b2n c0).
Proof.
  intros Ha Hb. destruct (Nat.add_carry_bits a b c0) as (c & E1 & E2 & E3). exists c.
  assert (HX : forall j, Nat.testbit (a + b + Nat.b2n c0) j = xorb (xorb (Nat.testbit a j) (Nat.testbit b j)) (Nat.testbit c j)) by (intros j; rewrite E1; now rewrite !Nat.lxor_spec).
  split; [exact HX|]. split; [exact E3|]. split.
  - intros j. rewrite <- testbit_div2'. rewrite E2. rewrite Nat.lor_spec, !Nat.land_spec, Nat.lor_spec. reflexivity.
  - specialize (HX m). rewrite (testbit_high a m m), (testbit_high b m m) in HX by lia. cbn [xorb] in HX. rewrite <- testbit_top; [symmetry; rewrite HX; now destruct (Nat.testbit c m)|].
    assert (Nat.b2n c0 <= 1) by (destruct c0; cbn; lia). lia.
Qed.
Lemma cout_bits cin m (cy : bool) j : 0 < m -> cin < 2 ^ m -> j < m ->
  Nat.testbit (Nat.lor (Nat.shiftl (Nat.b2n cy) (m - 1)) (Nat.shiftr cin 1)) j = if j =? m - 1 then cy else Nat.testbit cin (S j).
Proof.
  intros Hm Hc Hj. rewrite Nat.lor_spec, Nat.shiftr_spec'. replace (j + 1) with (S j) by lia. destruct (Nat.eqb_spec j (m - 1)) as [->|N].
  - rewrite Nat.shiftl_spec_high' by lia. rewrite Nat.sub_diag. rewrite (testbit_high cin m) by lia. rewrite orb_false_r. destruct cy; reflexivity.
  - rewrite Nat.shiftl_spec_low by lia. reflexivity.
Qed.
Lemma lxor3_bound x y z m : x < 2 ^ m -> y < 2 ^ m -> z < 2 ^ m -> Nat.lxor (Nat.lxor x y) z < 2 ^ m.
Proof.
  intros Hx Hy Hz. set (v := Nat.lxor (Nat.lxor x y) z). assert (v mod 2 ^ m = v).
  { apply Nat.bits_inj. intros j. destruct (Nat.lt_ge_cases j m) as [L|L]; [now rewrite Nat.mod_pow2_bits_low|]. rewrite Nat.mod_pow2_bits_high by lia. unfold v. rewrite !Nat.lxor_spec, !(testbit_high _ m j) by auto. reflexivity. }
  rewrite <- H. apply Nat.mod_upper_bound, Nat.pow_nonzero; lia.
Qed.
Lemma mod2_sum x y c W : 0 < W -> x < W -> y < W -> c <= 1 -> ((x + y) mod W + c) mod W = (x + y + c) mod W /\ (W <=? x + y) || (W <=? (x + y) mod W + c) = (W <=? x + y + c).
Proof.
  intros HW Hx Hy Hc. rewrite Nat.add_mod_idemp_l by lia. split; [reflexivity|].
  destruct (Nat.leb_spec W (x + y)) as [L|L].
  - cbn [orb]. symmetry. apply Nat.leb_le. lia.
  - cbn [orb]. rewrite (Nat.mod_small (x + y)) by lia. reflexivity.
Qed.

(** What the bits written by U32Add::populate satisfy. *)
Lemma add_populate_bits m x y c z cin cout cy : 0 < m -> x < 2 ^ m -> y < 2 ^ m -> c <= 1 -> u32_add_populate m x y c = (z, cin, cout, cy) ->
  z = (x + y + c) mod 2 ^ m /\ cy = (2 ^ m <=? x + y + c) /\ Nat.testbit cout (m - 1) = cy /\
  forall j, j < m ->
    Nat.testbit cin j = match j with 0 => Nat.testbit c 0 | S j' => Nat.testbit cout j' end /\
    Nat.testbit z j = xorb (xorb (Nat.testbit x j) (Nat.testbit y j)) (Nat.testbit cin j) /\
    Nat.testbit cout j = maj (Nat.testbit x j) (Nat.testbit y j) (Nat.testbit cin j).
Proof.
  intros Hm Hx Hy Hc E. assert (HW : 0 < 2 ^ m) by lia. unfold u32_add_populate in E. destruct (mod2_sum x y c (2 ^ m) HW Hx Hy Hc) as [E1 E2]. rewrite E1, E2 in E. pose proof (f_equal (fun p => fst (fst (fst p))) E) as Ez. pose proof (f_equal (fun p => snd (fst (fst p))) E) as Ei. pose proof (f_equal (fun p => snd (fst p)) E) as Eo. pose proof (f_equal snd E) as Ec. cbn [fst snd] in Ez, Ei, Eo, Ec. clear E.
  rewrite Ez in Ei. assert (Hz : z < 2 ^ m) by (rewrite <- Ez; apply Nat.mod_upper_bound; lia). pose proof (lxor3_bound x y z m Hx Hy Hz) as Hb. rewrite Ei in Hb.
  rewrite Ez, Ei, Ec in Eo. split; [auto|]. split; [auto|]. split; [subst cout; rewrite cout_bits by lia; now rewrite Nat.eqb_refl|].
  destruct (carries m x y (Nat.testbit c 0) Hx Hy) as (cc & H1 & H2 & H3 & H4).
  assert (Eb : Nat.b2n (Nat.testbit c 0) = c) by (destruct c as [|[|c]]; [reflexivity|reflexivity|lia]). rewrite Eb in H1, H4.
  assert (HC : forall j, j < m -> Nat.testbit cin j = Nat.testbit cc j).
  { intros j Hj. rewrite <- Ei, !Nat.lxor_spec. rewrite <- Ez, Nat.mod_pow2_bits_low by auto. rewrite H1. destruct (Nat.testbit x j), (Nat.testbit y j), (Nat.testbit cc j); reflexivity. }
  assert (HO : forall j, j < m -> Nat.testbit cout j = Nat.testbit cc (S j)).
  { intros j Hj. subst cout. rewrite cout_bits by auto. destruct (Nat.eqb_spec j (m - 1)) as [->|N]; [|now rewrite HC by lia]. replace (S (m - 1)) with m by lia. rewrite H4. now rewrite Ec. }
  intros j Hj. split; [|split].
  - rewrite HC by auto. destruct j as [|j]; [exact H2|]. now rewrite HO by lia.
  - rewrite HC by auto. rewrite <- Ez, Nat.mod_pow2_bits_low by auto. apply H1.
  - rewrite HO, HC by auto. apply H3.
Qed.
Lemma mod2_diff x y b W : 0 < W -> x < W -> y < W -> b <= 1 ->
  let z := ((x + W - y) mod W + W - b) mod W in let br := (x <? y) || ((x + W - y) mod W <? b) in
  z < W /\ br = (x <? y + b) /\ z + y + b = x + (if br then W else 0).
Proof.
  intros HW Hx Hy Hb z br. unfold z, br. destruct (Nat.ltb_spec x y) as [L|L].
  - cbn [orb]. rewrite (Nat.mod_small (x + W - y)) by lia. split; [apply Nat.mod_upper_bound; lia|]. split; [symmetry; apply Nat.ltb_lt; lia|].
    replace (x + W - y + W - b) with ((x + W - y - b) + 1 * W) by lia. rewrite Nat.mod_add, Nat.mod_small by lia. lia.
  - cbn [orb]. replace (x + W - y) with ((x - y) + 1 * W) by lia. rewrite Nat.mod_add, (Nat.mod_small (x - y)) by lia. split; [apply Nat.mod_upper_bound; lia|].
    destruct (Nat.ltb_spec (x - y) b) as [L2|L2].
    + split; [symmetry; apply Nat.ltb_lt; lia|]. rewrite Nat.mod_small by lia. lia.
    + split; [symmetry; apply Nat.ltb_ge; lia|]. replace (x - y + W - b) with ((x - y - b) + 1 * W) by lia. rewrite Nat.mod_add, Nat.mod_small by lia. lia.
Qed.
(** What the bits written by U32Sub::populate satisfy. *)
Lemma sub_populate_bits m x y b z bin bout br : 0 < m -> x < 2 ^ m -> y < 2 ^ m -> b <= 1 -> u32_sub_populate m x y b = (z, bin, bout, br) ->
  z < 2 ^ m /\ z + y + b = x + (if br then 2 ^ m else 0) /\ Nat.testbit bout (m - 1) = br /\
  forall j, j < m ->
    Nat.testbit bin j = match j with 0 => Nat.testbit b 0 | S j' => Nat.testbit bout j' end /\
    Nat.testbit x j = xorb (xorb (Nat.testbit z j) (Nat.testbit y j)) (Nat.testbit bin j) /\
    Nat.testbit bout j = maj (Nat.testbit z j) (Nat.testbit y j) (Nat.testbit bin j).
Proof.
  intros Hm Hx Hy Hb E. assert (HW : 0 < 2 ^ m) by lia. unfold u32_sub_populate in E. destruct (mod2_diff x y b (2 ^ m) HW Hx Hy Hb) as (Hz & E2 & E3). pose proof (f_equal (fun p => fst (fst (fst p))) E) as Ez. pose proof (f_equal (fun p => snd (fst (fst p))) E) as Ei. pose proof (f_equal (fun p => snd (fst p)) E) as Eo. pose proof (f_equal snd E) as Ec. cbn [fst snd] in Ez, Ei, Eo, Ec. clear E.
  rewrite Ez in *. rewrite Ec in *. rewrite Ei in Eo. pose proof (lxor3_bound x y z m Hx Hy Hz) as HB. rewrite Ei in HB. split; [auto|]. split; [auto|].
  split; [subst bout; rewrite cout_bits by lia; now rewrite Nat.eqb_refl|].
  destruct (carries m z y (Nat.testbit b 0) Hz Hy) as (cc & H1 & H2 & H3 & H4).
  assert (Eb : Nat.b2n (Nat.testbit b 0) = b) by (destruct b as [|[|b]]; [reflexivity|reflexivity|lia]). rewrite Eb in H1, H4.
  assert (HXB : forall j, j < m -> Nat.testbit (z + y + b) j = Nat.testbit x j).
  { intros j Hj. rewrite <- (Nat.mod_pow2_bits_low (z + y + b) m j) by auto. f_equal. rewrite E3. destruct br; [|rewrite Nat.add_0_r; now apply Nat.mod_small]. replace (x + 2 ^ m) with (x + 1 * 2 ^ m) by lia. rewrite Nat.mod_add, Nat.mod_small by lia. reflexivity. }
  assert (HC : forall j, j < m -> Nat.testbit bin j = Nat.testbit cc j).
  { intros j Hj. rewrite <- Ei, !Nat.lxor_spec. rewrite <- (HXB j Hj), H1. destruct (Nat.testbit z j), (Nat.testbit y j), (Nat.testbit cc j); reflexivity. }
  assert (HO : forall j, j < m -> Nat.testbit bout j = Nat.testbit cc (S j)).
  { intros j Hj. subst bout. rewrite cout_bits by auto. destruct (Nat.eqb_spec j (m - 1)) as [->|N]; [|now rewrite HC by lia]. replace (S (m - 1)) with m by lia. rewrite H4. rewrite E3.
    destruct br; symmetry; [apply Nat.leb_le; lia|apply Nat.leb_gt; lia]. }
  intros j Hj. split; [|split].
  - rewrite HC by auto. destruct j as [|j]; [exact H2|]. now rewrite HO by lia.
  - rewrite HC by auto. rewrite <- HXB by auto. apply H1.
  - rewrite HO, HC by auto. apply H3.
Qed.
