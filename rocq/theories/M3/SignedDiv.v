(** C46, last part: signed division. *)
Require Import Coq.NArith.NArith Coq.ZArith.ZArith Coq.Arith.Arith Coq.Lists.List Coq.Bool.Bool Lia.
From Verif Require Import Base.Fld Base.Lists Base.Sums M3.TableModel M3.TableProofs M3.GadgetModel M3.BitLemmas M3.AddProps M3.WideProps M3.MulProps M3.SignedModel M3.SignedProps.
Import ListNotations.
Local Open Scope nat_scope.

(** *** Numbers in two's complement *)
(** The [m]-bit encoding of an integer. *)
Definition enc (m : nat) (z : Z) : nat := Z.to_nat (z mod 2 ^ Z.of_nat m).
(** Sign extension from [m] to [2m] bits. *)
Definition sext (m a : nat) : nat := if neg m a then a + 2 ^ m * (2 ^ m - 1) else a.

Lemma half m : 0 < m -> 2 ^ m = 2 * 2 ^ (m - 1).
Proof. intros H. rewrite <- Nat.pow_succ_r'. f_equal. lia. Qed.
Lemma pow_Z m : (2 ^ Z.of_nat m)%Z = Z.of_nat (2 ^ m).
Proof. rewrite Nat2Z.inj_pow. reflexivity. Qed.
Lemma pow_2m m : 2 ^ (2 * m) = 2 ^ m * 2 ^ m.
Proof. rewrite <- Nat.pow_add_r. f_equal. lia. Qed.
Lemma neg_spec m a : 0 < m -> a < 2 ^ m -> neg m a = (2 ^ (m - 1) <=? a).
Proof. intros Hm H. unfold neg. apply testbit_top. rewrite (half m Hm) in H. exact H. Qed.
Lemma sval_spec m a : 0 < m -> a < 2 ^ m -> let h := 2 ^ (m - 1) in
  neg m a = true /\ sval m a = (Z.of_nat a - 2 * Z.of_nat h)%Z /\ h <= a < 2 * h \/ neg m a = false /\ sval m a = Z.of_nat a /\ a < h.
Proof.
  intros Hm H h. unfold sval. rewrite pow_Z, (half m Hm). fold h. rewrite (neg_spec m a Hm H). rewrite (half m Hm) in H. fold h in H |- *. destruct (Nat.leb_spec h a); [left|right]; repeat split; lia.
Qed.
Lemma sval_range m a : 0 < m -> a < 2 ^ m -> (- Z.of_nat (2 ^ (m - 1)) <= sval m a < Z.of_nat (2 ^ (m - 1)))%Z.
Proof. intros Hm H. destruct (sval_spec m a Hm H) as [(_ & -> & L)|(_ & -> & L)]; lia. Qed.
Lemma sval_neg m a : 0 < m -> a < 2 ^ m -> neg m a = (sval m a <? 0)%Z.
Proof. intros Hm H. destruct (sval_spec m a Hm H) as [(-> & -> & L)|(-> & -> & L)]; symmetry; [apply Z.ltb_lt|apply Z.ltb_ge]; lia. Qed.
Lemma enc_lt m z : enc m z < 2 ^ m.
Proof. unfold enc. rewrite pow_Z. pose proof (Nat.pow_nonzero 2 m ltac:(lia)). pose proof (Z.mod_pos_bound z (Z.of_nat (2 ^ m)) ltac:(lia)). lia. Qed.
Lemma sval_enc m z : 0 < m -> (- Z.of_nat (2 ^ (m - 1)) <= z < Z.of_nat (2 ^ (m - 1)))%Z -> sval m (enc m z) = z.
Proof.
  intros Hm HZ. pose proof (enc_lt m z) as L. assert (E : Z.of_nat (enc m z) = if (z <? 0)%Z then (z + Z.of_nat (2 ^ m))%Z else z).
  { unfold enc. rewrite pow_Z, (half m Hm). rewrite Z2Nat.id by (apply Z.mod_pos_bound; lia). destruct (Z.ltb_spec z 0).
    - symmetry. apply (Z.mod_unique _ _ (-1)); lia.
    - apply Z.mod_small. lia. }
  rewrite (half m Hm) in E. destruct (sval_spec m _ Hm L) as [(_ & -> & K)|(_ & -> & K)]; destruct (Z.ltb_spec z 0); lia.
Qed.
Lemma sval_inj m a b : 0 < m -> a < 2 ^ m -> b < 2 ^ m -> sval m a = sval m b -> a = b.
Proof. intros Hm A B. destruct (sval_spec m a Hm A) as [(_ & -> & K)|(_ & -> & K)], (sval_spec m b Hm B) as [(_ & -> & K')|(_ & -> & K')]; lia. Qed.
Lemma sval_zero m a : 0 < m -> a < 2 ^ m -> sval m a = 0%Z <-> a = 0.
Proof. intros Hm A. destruct (sval_spec m a Hm A) as [(_ & -> & K)|(_ & -> & K)]; lia. Qed.

(** Sign extension keeps the value. *)
Lemma sext_Z m a : 0 < m -> a < 2 ^ m -> Z.of_nat (sext m a) = if neg m a then (sval m a + Z.of_nat (2 ^ (2 * m)))%Z else sval m a.
Proof.
  intros Hm A. pose proof (Nat.pow_nonzero 2 m ltac:(lia)). unfold sext. rewrite pow_2m. unfold sval. rewrite pow_Z. destruct (neg m a); [|reflexivity]. nia.
Qed.
Lemma sext_lt m a : a < 2 ^ m -> sext m a < 2 ^ (2 * m).
Proof. intros A. unfold sext. rewrite pow_2m. destruct (neg m a); nia. Qed.
Lemma mod_eq_nat a b M : 0 < M -> a < M -> (Z.of_nat a mod Z.of_nat M = b mod Z.of_nat M)%Z -> (b mod Z.of_nat M = Z.of_nat a)%Z.
Proof. intros M0 A <-. apply Z.mod_small. lia. Qed.
(** The absolute value, as computed by the sign converters. *)
Lemma abs_sext m a : 0 < m -> a < 2 ^ m -> Z.of_nat (signed_by (2 * m) (neg m a) (sext m a)) = Z.abs (sval m a).
Proof.
  intros Hm A. pose proof (sext_Z m a Hm A) as E. pose proof (sval_range m a Hm A) as R. rewrite (sval_neg m a Hm A) in E |- *. pose proof (half m Hm) as H2. pose proof (pow_2m m) as P2. unfold signed_by. destruct (Z.ltb_spec (sval m a) 0).
  - rewrite Nat.mod_small by nia. nia.
  - lia.
Qed.
Lemma neg_abs_sext m a : 0 < m -> a < 2 ^ m -> a <> 0 -> Z.of_nat (signed_by (2 * m) (negb (neg m a)) (sext m a)) = (Z.of_nat (2 ^ (2 * m)) - Z.abs (sval m a))%Z.
Proof.
  intros Hm A A0. pose proof (sext_Z m a Hm A) as E. pose proof (sval_range m a Hm A) as R. pose proof (sval_zero m a Hm A) as Z0. rewrite (sval_neg m a Hm A) in E |- *. pose proof (half m Hm) as H2. pose proof (pow_2m m) as P2. unfold signed_by. destruct (Z.ltb_spec (sval m a) 0); cbn [negb].
  - lia.
  - rewrite Nat.mod_small by nia. nia.
Qed.

Section Div.
  Variable F : field.
  Hypothesis C2 : char2 F.
  Variable basis : nat -> F.
  Add Ring Fring : (f_ring F).
  Notation wit := (wit F).
  Notation b2n := (b2n F).
  Notation bnum := (bnum F).
  Notation isbit := (isbit F).
  Notation tb := (tb F).
  Notation num := (num F).
  Notation bitcols := (bitcols F).
  Notation hold := (hold F).
  Notation holdn := (holdn F).
  Notation len t := (length (t_cols F t)).
  Notation se m l := (map (fun i => if i <? m then nthc l i else nthc l (m - 1)) (seq 0 (2 * m))).
  Notation cat m l h := (map (fun i => if i <? m then nthc l i else nthc h (i - m)) (seq 0 (2 * m))).

  Lemma bnum_ones k f : (forall j, j < k -> f j = f1) -> bnum f k = 2 ^ k - 1.
  Proof. intros H. induction k as [|k IH]; [reflexivity|]. cbn [AddProps.bnum]. rewrite IH by (intros; apply H; lia). rewrite H, b2n_1 by lia. rewrite Nat.pow_succ_r'. pose proof (Nat.pow_nonzero 2 k ltac:(lia)). lia. Qed.
  Lemma se_num n m w l : 0 < m -> bitcols n m w l -> bitcols n (2 * m) w (se m l) /\ forall i, i < n -> num (2 * m) w (se m l) i = sext m (num m w l i).
  Proof.
    intros Hm B. split.
    - intros j Hj i Hi. rewrite nthc_map by auto. destruct (Nat.ltb_spec j m); apply B; auto; lia.
    - intros i Hi. unfold WideProps.num at 1. replace (2 * m) with (m + m) by lia. rewrite bnum_app.
      assert (E1 : bnum (fun j => w (nthc (se m l) j) i) m = num m w l i).
      { apply bnum_ext. intros j Hj. rewrite nthc_map by lia. destruct (Nat.ltb_spec j m); [reflexivity|lia]. }
      assert (E2 : forall j, j < m -> w (nthc (se m l) (m + j)) i = bF F (neg m (num m w l i))).
      { intros j Hj. rewrite nthc_map by lia. destruct (Nat.ltb_spec (m + j) m); [lia|]. apply (col_bit F n m w l i (m - 1)); auto. lia. }
      replace (m + m) with (2 * m) by lia. rewrite E1. unfold sext. destruct (neg m (num m w l i)).
      + rewrite (bnum_ones m) by exact E2. reflexivity.
      + rewrite (bnum_zero F m) by exact E2. lia.
  Qed.
  Lemma se_holdn n m w l X : 0 < m -> (forall i, X i < 2 ^ m) -> holdn n m w l X -> holdn n (2 * m) w (se m l) (fun i => sext m (X i)).
  Proof.
    intros Hm HX H. destruct (se_num n m w l Hm (holdn_bits F n m w l X H)) as [B E]. apply num_holdn; [exact B|]. intros i Hi. rewrite E by auto. rewrite (holdn_num F n m w l X i H Hi). now rewrite Nat.mod_small.
  Qed.
  Lemma cat_num n m w l h : bitcols n m w l -> bitcols n m w h -> bitcols n (2 * m) w (cat m l h) /\ forall i, i < n -> num (2 * m) w (cat m l h) i = num m w l i + 2 ^ m * num m w h i.
  Proof.
    intros BL BH. split.
    - intros j Hj i Hi. rewrite nthc_map by auto. destruct (Nat.ltb_spec j m); [apply BL|apply BH]; auto; lia.
    - intros i Hi. unfold WideProps.num at 1. replace (2 * m) with (m + m) by lia. rewrite bnum_app. replace (m + m) with (2 * m) by lia. f_equal; [|f_equal]; apply bnum_ext; intros j Hj.
      + rewrite nthc_map by lia. destruct (Nat.ltb_spec j m); [reflexivity|lia].
      + rewrite nthc_map by lia. destruct (Nat.ltb_spec (m + j) m); [lia|]. do 2 f_equal. lia.
  Qed.
  Lemma cat_holdn n m w l h X Y : (forall i, X i < 2 ^ m) -> (forall i, Y i < 2 ^ m) -> holdn n m w l X -> holdn n m w h Y -> holdn n (2 * m) w (cat m l h) (fun i => X i + 2 ^ m * Y i).
  Proof.
    intros HX HY L H. destruct (cat_num n m w l h (holdn_bits F n m w l X L) (holdn_bits F n m w h Y H)) as [B E]. apply num_holdn; [exact B|]. intros i Hi.
    rewrite E, (holdn_num F n m w l X i L Hi), (holdn_num F n m w h Y i H Hi) by auto. now rewrite !Nat.mod_small.
  Qed.

  (** The carries computed by WideAdd::populate are those of addition. *)
  Lemma wide_add_num x y c k : (forall j, isbit (x j)) -> (forall j, isbit (y j)) -> isbit c ->
    bnum x k + bnum y k + b2n c = bnum (fun j => (x j + y j + wide_carry F x y c j)%F) k + 2 ^ k * b2n (wide_carry F x y c k).
  Proof.
    intros Hx Hy Hc. change (b2n c) with (b2n (wide_carry F x y c 0)). rewrite (ripple F x y (wide_carry F x y c) (fun j => (x j + y j + wide_carry F x y c j)%F) k); [lia|]. intros j Hj.
    apply (full_adder F C2); auto. now apply wide_carry_bit.
  Qed.
  Lemma wide_add_bits n lb k x y zout (X Y : nat -> nat) (c : nat -> bool) (S : nat -> nat) : 0 < k -> (forall i, X i < 2 ^ k) -> (forall i, Y i < 2 ^ k) -> (forall i, S i < 2 ^ k) ->
    (forall i, exists q, X i + Y i + (if c i then 1 else 0) = S i + 2 ^ k * q) ->
    can F basis n (fun w => holdn n k w x X /\ holdn n k w y Y) (wide_add_new F lb k x y (mkAddFlags None true zout)) (fun w g => holdn n k w (wa_zout g) S).
  Proof.
    intros Hk HX HY HS HE. eapply can_conseq; [apply (wide_add_can F C2 basis n lb k x y (mkAddFlags None true zout) (fun j i => tb (X i) j) (fun j i => tb (Y i) j) (fun i => bF F (c i)) Hk)| |].
    - intros; apply tb_isbit.
    - intros; apply tb_isbit.
    - intros i. unfold bF. destruct (c i); [now right|now left].
    - intros w [HX' HY']. split; [exact HX'|]. split; [exact HY'|exact I].
    - cbv beta. intros w g _ (_ & HZ & _) j Hj i Hi. rewrite (HZ j Hj i Hi).
      assert (Bc : isbit (bF F (c i))) by (unfold bF; destruct (c i); [now right|now left]).
      apply (bits_of_num F (fun j => (tb (X i) j + tb (Y i) j + wide_carry F (tb (X i)) (tb (Y i)) (bF F (c i)) j)%F) k (S i)); [| |exact Hj].
      + intros l Hl. repeat apply (bit_add F C2); try apply tb_isbit. apply (wide_carry_bit F C2); auto; intros; apply tb_isbit.
      + pose proof (wide_add_num (tb (X i)) (tb (Y i)) (bF F (c i)) k (tb_isbit F _) (tb_isbit F _) Bc) as W. rewrite !bnum_tb, !Nat.mod_small in W by auto.
        set (B := bnum (fun j => (tb (X i) j + tb (Y i) j + wide_carry F (tb (X i)) (tb (Y i)) (bF F (c i)) j)%F) k) in *. assert (LB : B < 2 ^ k) by apply bnum_bound. destruct (HE i) as [q EQ].
        replace (b2n (bF F (c i))) with (if c i then 1 else 0) in W by (destruct (c i); unfold bF; [now rewrite b2n_1|now rewrite b2n_0]).
        rewrite EQ in W. specialize (HS i). rewrite <- (Nat.mod_small B (2 ^ k)), <- (Nat.mod_small (S i) (2 ^ k)) by auto. rewrite <- (Nat.mod_add B (b2n (wide_carry F (tb (X i)) (tb (Y i)) (bF F (c i)) k))), <- (Nat.mod_add (S i) q) by lia. f_equal. lia.
  Qed.

  Lemma mul_ss_sound_ens n m lb g x y : 0 < m -> has_order F g (2 ^ (2 * m) - 1) -> ens F basis n (mul_ss_with_input F basis lb m g x y) (fun w r =>
      length x = m -> length y = m -> bitcols n m w x -> bitcols n m w y -> bitcols n m w (ms_low_bits r) /\ bitcols n m w (ms_high_bits r) /\
      forall i, i < n -> exists h, num m w x i * num m w y i = num m w (ms_low_bits r) i + 2 ^ m * h /\ (neg m (num m w x i) = false -> neg m (num m w y i) = false -> num m w (ms_high_bits r) i = h)).
  Proof.
    intros Hm HG t r t' E w SW. split.
    - assert (K : ens F basis n (mul_ss_with_input F basis lb m g x y) (fun _ _ => True)); [|exact (proj1 (K t r t' E w SW))]. unfold mul_ss_with_input. eapply ens_conseq; [|intros; exact I].
      eapply ens_bind; [eapply ens_true, (ens_computed F C2)|intros xin]. eapply ens_bind; [eapply ens_true, (ens_computed F C2)|intros yin].
      eapply ens_bind; [apply (mul_sound_ens F C2 basis n m g x y Hm HG)|intros mi]. eapply ens_bind; [apply (wide_sub_odd F C2 basis n lb m); exact Hm|intros ys].
      eapply ens_bind; [apply (ens_from_fn F basis n 0); intros j Hj; apply (ens_computed F C2)|intros nh].
      eapply ens_bind; [apply (wide_sub_odd F C2 basis n lb m); exact Hm|intros xs].
      eapply ens_bind; [apply (ens_from_fn F basis n 0); intros j Hj; apply (ens_computed F C2)|intros oh].
      eapply ens_bind; [eapply ens_true, (ens_computed F C2)|intros ph]. eapply ens_bind; [eapply ens_true, (ens_computed F C2)|intros pl].
      match goal with |- ens _ _ _ (bret F ?v) _ => apply (ens_ret F basis n v (fun _ b => b = v)); reflexivity end.
    - intros LX LY BX BY. destruct (mul_ss_sound_partial F C2 basis lb m g x y t r t' Hm LX LY HG E n w SW BX BY) as (BL & BH & H). split; [exact BL|]. split; [exact BH|]. intros i Hi. destruct (H i Hi) as (h & H1 & H2 & _). eauto.
  Qed.

  (** DivSS32: what every satisfying assignment has.  Missing: the sum may be off by one, and when the divisor or the quotient is
      negative the dividend is right only modulo 2^m. *)
  Theorem div_ss_sound_partial lb m g t r t' : 0 < m -> has_order F g (2 ^ (2 * m) - 1) -> div_ss_new F basis lb m g t = (r, t') ->
    forall n w, satisfies F basis n w t' ->
    bitcols n m w (e_p_bits r) /\ bitcols n m w (e_q_bits r) /\ bitcols n m w (e_div_bits r) /\ bitcols n m w (e_rem_bits r) /\
    forall i, i < n -> let P := sval m (num m w (e_p_bits r) i) in let Q := sval m (num m w (e_q_bits r) i) in let D := sval m (num m w (e_div_bits r) i) in let R := sval m (num m w (e_rem_bits r) i) in
      (Q <> 0 /\ (P < 0 <-> R < 0) /\ Z.abs R < Z.abs Q /\
       exists c, (c = 0 \/ c = 1) /\ (exists k, Q * D + R + c = P + k * 2 ^ Z.of_nat m) /\ (0 <= Q -> 0 <= D -> P = Q * D + R + c))%Z.
  Proof.
    intros Hm HG E n w SW. revert t r t' E w SW.
    match goal with |- forall t r t', _ -> forall w, _ -> @?K r w => assert (EN : ens F basis n (div_ss_new F basis lb m g) (fun w r => K r w)); [|intros t r t' E w SW; exact (proj2 (EN t r t' E w SW))] end. cbv beta.
    unfold div_ss_new. cbv zeta. eapply ens_conseq.
    - eapply ens_bind; [apply ens_bits|intros pb]. eapply ens_bind; [apply ens_bits|intros qb].
      eapply ens_bind; [eapply ens_true, (ens_computed F C2)|intros pin]. eapply ens_bind; [apply (ens_computed F C2)|intros qin].
      eapply ens_bind; [apply ens_bits|intros db]. eapply ens_bind; [apply ens_bits|intros rb].
      eapply ens_bind; [apply ens_zero|intros u0].
      eapply ens_bind; [eapply ens_true, (ens_computed F C2)|intros dp]. eapply ens_bind; [eapply ens_true, (ens_computed F C2)|intros rp].
      eapply ens_bind; [apply (mul_ss_sound_ens n m lb g qb db Hm HG)|intros mi]. eapply ens_bind; [apply ens_nonzero|intros u1].
      eapply ens_bind; [apply (wide_add_sound_ens F C2 basis n lb (2 * m)); [lia|reflexivity]|intros sm].
      eapply ens_bind; [apply (ens_from_fn F basis n tt); intros j Hj; apply ens_zero|intros u2].
      eapply ens_bind; [apply (sign_ens F C2 basis n (2 * m)); lia|intros ar]. eapply ens_bind; [apply (sign_ens F C2 basis n (2 * m)); lia|intros nq].
      eapply ens_bind; [apply (wide_add_sound_ens F C2 basis n lb (2 * m)); [lia|reflexivity]|intros sb]. eapply ens_bind; [apply ens_zero|intros u3].
      match goal with |- ens _ _ _ (bret F ?v) _ => apply (ens_ret F basis n v (fun _ b => b = v)); reflexivity end.
    - intros w r HW. destruct HW as (pb & [LP BP] & qb & [LQ BQ] & pin & _ & qin & XQ & db & [LD BD] & rb & [LR BR] & u0 & X0 & dp & _ & rp & _ & mi & XM & u1 & XN & sm & XS & u2 & [_ XE] & ar & XA & nq & XNQ & sb & XB & u3 & XT & ->).
      cbn [e_p_bits e_q_bits e_div_bits e_rem_bits]. split; [exact BP|]. split; [exact BQ|]. split; [exact BD|]. split; [exact BR|].
      destruct (XM LQ LD BQ BD) as (BL & BH & HM). destruct (cat_num n m w _ _ BL BH) as [BC NC]. destruct (se_num n m w rb Hm BR) as [BSR NSR]. destruct (se_num n m w pb Hm BP) as [BSP NSP]. destruct (se_num n m w qb Hm BQ) as [BSQ NSQ].
      destruct (XS BC BSR) as [BS HS].
      assert (CR : forall i, i < n -> eeval F w i (SignedModel.ECol' F (nthc rb (m - 1))) = bF F (neg m (num m w rb i))) by (intros i Hi; cbn [eeval SignedModel.ECol']; apply (col_bit F n m w rb i (m - 1)); auto; lia).
      assert (CQ : forall i, i < n -> eeval F w i (EAdd F (SignedModel.ECol' F (nthc qb (m - 1))) (EConst F f1)) = bF F (negb (neg m (num m w qb i)))).
      { intros i Hi. cbn [eeval SignedModel.ECol']. rewrite (col_bit F n m w qb i (m - 1)) by (auto; lia). change (f1 : F) with (bF F true). rewrite (xor_F F C2). unfold neg. destruct (Nat.testbit _ _); reflexivity. }
      assert (BB : forall b, isbit (bF F b)) by (intros []; [now right|now left]).
      destruct (XA BSR) as [BA HA]; [intros i Hi; rewrite CR by auto; apply BB|]. destruct (XNQ BSQ) as [BN HN]; [intros i Hi; rewrite CQ by auto; apply BB|]. destruct (XB BA BN) as [BT HT].
      intros i Hi. cbv zeta. specialize (HA i Hi). rewrite CR, on_bF, NSR in HA by auto. specialize (HN i Hi). rewrite CQ, on_bF, NSQ in HN by auto.
      assert (ES : num (2 * m) w (wa_zout sm) i = sext m (num m w pb i)).
      { rewrite <- (NSP i Hi). unfold WideProps.num. apply bnum_ext. intros j Hj. specialize (XE j Hj i). cbn [fst snd eeval SignedModel.ECol' Nat.add] in XE. symmetry. apply (char2_add_eq0 F C2). apply XE. lia. }
      destruct (HS i Hi) as (c0 & C01 & CS). rewrite NC, NSR, ES in CS by auto. destruct (HM i Hi) as (h & HM1 & HM2).
      assert (SG : neg m (num m w pb i) = neg m (num m w rb i)).
      { specialize (X0 i). cbn [fst snd eeval SignedModel.ECol'] in X0. specialize (X0 ltac:(lia)). rewrite (col_bit F n m w pb i (m - 1)), (col_bit F n m w rb i (m - 1)) in X0 by (auto; lia). apply (proj1 (char2_add_eq0 F C2 _ _)) in X0. now apply bF_inj in X0. }
      assert (Q0 : num m w qb i <> 0).
      { intros ZQ. apply (XN i); [cbn [fst]; lia|]. cbn [snd]. rewrite XQ by lia. rewrite (pack_eval F basis). unfold packed. apply sumn_zero. intros j Hj. rewrite LQ in Hj. rewrite (col_bit F n m w qb i j) by auto. rewrite ZQ, Nat.bits_0. unfold bF. ring. }
      destruct (HT i Hi) as (c1 & C11 & CT). rewrite HA, HN in CT.
      assert (TT : Nat.testbit (num (2 * m) w (wa_zout sb) i) (2 * m - 1) = true).
      { specialize (XT i). cbn [fst snd eeval SignedModel.ECol'] in XT. specialize (XT ltac:(lia)). rewrite (col_bit F n (2 * m) w (wa_zout sb) i (2 * m - 1)) in XT by (auto; lia). apply (proj1 (char2_add_eq0 F C2 _ _)) in XT. change (f1 : F) with (bF F true) in XT. now apply bF_inj in XT. }
      assert (LT : num (2 * m) w (wa_zout sb) i < 2 ^ (2 * m)) by apply bnum_bound. set (T := num (2 * m) w (wa_zout sb) i) in *. fold (neg (2 * m) T) in TT. rewrite neg_spec in TT by (auto; lia). apply Nat.leb_le in TT.
      assert (LPn : num m w pb i < 2 ^ m) by apply bnum_bound. assert (LQn : num m w qb i < 2 ^ m) by apply bnum_bound. assert (LDn : num m w db i < 2 ^ m) by apply bnum_bound. assert (LRn : num m w rb i < 2 ^ m) by apply bnum_bound.
      set (p := num m w pb i) in *. set (q := num m w qb i) in *. set (d := num m w db i) in *. set (v := num m w rb i) in *.
      pose proof (sval_range m p Hm LPn) as RP. pose proof (sval_range m q Hm LQn) as RQ. pose proof (sval_range m d Hm LDn) as RD. pose proof (sval_range m v Hm LRn) as RR.
      pose proof (abs_sext m v Hm LRn) as AR. pose proof (neg_abs_sext m q Hm LQn Q0) as AQ. pose proof (sext_Z m p Hm LPn) as SP. pose proof (sext_Z m v Hm LRn) as SR.
      pose proof (half m Hm) as H2. pose proof (pow_2m m) as P2. pose proof (half (2 * m) ltac:(lia)) as H4. assert (H1 : 0 < 2 ^ (m - 1)) by (pose proof (Nat.pow_nonzero 2 (m - 1) ltac:(lia)); lia).
      set (H := 2 ^ (m - 1)) in *. set (M := 2 ^ m) in *. set (HH := 2 ^ (2 * m - 1)) in *. assert (EHH : HH = 2 * (H * H)) by (clear - H2 P2 H4; rewrite P2, H2 in H4; lia). assert (HHH : H <= H * H) by (clear - H1; nia).
      split; [rewrite (sval_zero m q Hm LQn); exact Q0|]. split.
      { pose proof (sval_neg m p Hm LPn) as N1. pose proof (sval_neg m v Hm LRn) as N2. rewrite SG, N2 in N1. destruct (Z.ltb_spec (sval m p) 0), (Z.ltb_spec (sval m v) 0); try discriminate; lia. }
      split.
      { assert (AQ0 : (0 < Z.abs (sval m q))%Z) by (pose proof (proj1 (sval_zero m q Hm LQn)); lia). set (b := b2n (w (wa_final_carry sb) i)) in *. assert (B1 : b <= 1) by apply b2n_le.
        set (x1 := signed_by (2 * m) (neg m v) (sext m v)) in *. set (x2 := signed_by (2 * m) (negb (neg m q)) (sext m q)) in *.
        destruct (Z.lt_ge_cases (Z.abs (sval m v)) (Z.abs (sval m q))) as [|G]; [assumption|exfalso]. destruct b as [|[|]]; lia. }
      exists (Z.of_nat c0). split; [lia|]. set (b := b2n (w (wa_final_carry sm) i)) in *. assert (B1 : b <= 1) by apply b2n_le. split.
      + set (hg := num m w (ms_high_bits mi) i) in *. set (lo := num m w (ms_low_bits mi) i) in *.
        assert (CG : forall a, exists k, sval m a = (Z.of_nat a + k * Z.of_nat M)%Z) by (intros a; unfold sval; rewrite pow_Z; fold M; destruct (neg m a); [exists (-1)%Z|exists 0%Z]; lia).
        assert (CE : forall a, a < M -> exists k, Z.of_nat (sext m a) = (sval m a + k * (Z.of_nat M * Z.of_nat M))%Z).
        { intros a La. rewrite (sext_Z m a Hm La), P2. destruct (neg m a); [exists 1%Z|exists 0%Z]; lia. }
        destruct (CG q) as [kq Eq], (CG d) as [kd Ed], (CE p LPn) as [kp Ep], (CE v LRn) as [kr Er].
        exists (kq * Z.of_nat d + kd * Z.of_nat q + kq * kd * Z.of_nat M + Z.of_nat h + kp * Z.of_nat M + Z.of_nat M * Z.of_nat b - Z.of_nat hg - kr * Z.of_nat M)%Z.
        rewrite pow_Z. fold M. rewrite Eq, Ed. 
        assert (CSZ : (Z.of_nat lo + Z.of_nat M * Z.of_nat hg + Z.of_nat (sext m v) + Z.of_nat c0 = Z.of_nat (sext m p) + Z.of_nat M * Z.of_nat M * Z.of_nat b)%Z) by (rewrite P2 in CS; clear - CS; lia).
        assert (HMZ : (Z.of_nat q * Z.of_nat d = Z.of_nat lo + Z.of_nat M * Z.of_nat h)%Z) by (clear - HM1; lia).
        rewrite Ep, Er in CSZ. clear - HMZ CSZ. set (M' := Z.of_nat M) in *. lia.
      + intros PQ PD. assert (NQ : neg m q = false) by (rewrite (sval_neg m q Hm LQn); apply Z.ltb_ge; exact PQ). assert (ND : neg m d = false) by (rewrite (sval_neg m d Hm LDn); apply Z.ltb_ge; exact PD).
        rewrite (HM2 NQ ND) in CS. rewrite <- HM1 in CS. rewrite <- SG in SR. assert (EQ : sval m q = Z.of_nat q) by (unfold sval; now rewrite NQ). assert (ED : sval m d = Z.of_nat d) by (unfold sval; now rewrite ND).
        rewrite EQ, ED in *. apply (f_equal Z.of_nat) in CS. rewrite !Nat2Z.inj_add, !Nat2Z.inj_mul in CS.
        assert (DF : (Z.of_nat q * Z.of_nat d + sval m v + Z.of_nat c0 - sval m p = Z.of_nat (2 ^ (2 * m)) * Z.of_nat b)%Z) by (destruct (neg m p); lia).
        assert (UB : (Z.of_nat q * Z.of_nat d <= (Z.of_nat H - 1) * (Z.of_nat H - 1))%Z) by (apply Z.mul_le_mono_nonneg; lia).
        assert (M4 : Z.of_nat (2 ^ (2 * m)) = (4 * (Z.of_nat H * Z.of_nat H))%Z) by (rewrite P2, H2; lia). rewrite M4 in DF. destruct b as [|[|]]; lia.
  Qed.

  (** DivSS32 rejects every exact division of a negative number: a satisfying assignment with a negative dividend has a nonzero
      remainder. *)
  Theorem div_ss_exact_refuted lb m g t r t' : 0 < m -> has_order F g (2 ^ (2 * m) - 1) -> div_ss_new F basis lb m g t = (r, t') ->
    forall n w, satisfies F basis n w t' -> forall i, i < n -> (sval m (num m w (e_p_bits r) i) < 0)%Z -> sval m (num m w (e_rem_bits r) i) <> 0%Z.
  Proof. intros Hm HG E n w SW i Hi HP. destruct (div_ss_sound_partial lb m g t r t' Hm HG E n w SW) as (_ & _ & _ & _ & H). destruct (H i Hi) as (_ & S & _). lia. Qed.

  Lemma div_ss_can n m lb g (P Q D R : nat -> nat) (c : nat -> bool) : 0 < m -> basis_indep F basis m ->
    (forall i, P i < 2 ^ m) -> (forall i, 0 < Q i < 2 ^ m) -> (forall i, D i < 2 ^ m) -> (forall i, R i < 2 ^ m) ->
    (forall i, neg m (P i) = neg m (R i)) -> (forall i, Z.abs (sval m (R i)) < Z.abs (sval m (Q i)))%Z ->
    (forall i, sval m (P i) = sval m (Q i) * sval m (D i) + sval m (R i) + if c i then 1 else 0)%Z ->
    can F basis n (fun _ => True) (div_ss_new F basis lb m g)
      (fun w r => holdn n m w (e_p_bits r) P /\ holdn n m w (e_q_bits r) Q /\ holdn n m w (e_div_bits r) D /\ holdn n m w (e_rem_bits r) R).
  Proof.
    intros Hm HI LP LQ LD LR SG AB EQ. unfold div_ss_new. cbv zeta.
    pose proof (half m Hm) as H2. pose proof (pow_2m m) as P2. pose proof (half (2 * m) ltac:(lia)) as H4.
    assert (H1 : 0 < 2 ^ (m - 1)) by (pose proof (Nat.pow_nonzero 2 (m - 1) ltac:(lia)); lia).
    eapply can_bind; [apply (can_committed_multiple F basis n _ m 1 (fun j i => tb (P i) j)); intros; apply tb_bit|intros pb].
    eapply can_bind; [apply (can_committed_multiple F basis n _ m 1 (fun j i => tb (Q i) j)); intros; apply tb_bit|intros qb].
    eapply can_bind; [apply (can_computed F C2 basis n _ 1 false _ (fun i => packed F basis m (tb (P i)))); [discriminate|]|intros pin].
    { intros w HW i Hi. ands. apply (holdn_packed F basis n); auto; [|lia]. intros j Hj k Hk. unfold nthc. auto. }
    eapply can_bind; [apply (can_computed F C2 basis n _ 1 false _ (fun i => packed F basis m (tb (Q i)))); [discriminate|]|intros qin].
    { intros w HW i Hi. ands. apply (holdn_packed F basis n); auto; [|lia]. intros j Hj k Hk. unfold nthc. auto. }
    eapply can_bind; [apply (can_committed_multiple F basis n _ m 1 (fun j i => tb (D i) j)); intros; apply tb_bit|intros db].
    eapply can_bind; [apply (can_committed_multiple F basis n _ m 1 (fun j i => tb (R i) j)); intros; apply tb_bit|intros rb].
    eapply can_conseq with (P' := fun w => (length pb = m /\ length qb = m /\ length db = m /\ length rb = m) /\ (forall i, w qin i = packed F basis m (tb (Q i))) /\ holdn n m w pb P /\ holdn n m w qb Q /\ holdn n m w db D /\ holdn n m w rb R)
      (Q' := fun w r => holdn n m w (e_p_bits r) P /\ holdn n m w (e_q_bits r) Q /\ holdn n m w (e_div_bits r) D /\ holdn n m w (e_rem_bits r) R); [| |auto].
    2: { intros w HW. ands. split; [auto|]. split; [assumption|]. repeat split; intros j Hj i Hi; unfold nthc; auto. }
    eapply can_bind; [apply can_zero|intros u0].
    { intros w (_ & _ & HP & _ & _ & HR) i Hi. cbn [fst] in Hi. cbn [fst snd eeval SignedModel.ECol']. rewrite (HP (m - 1)), (HR (m - 1)) by lia.
      assert (T : tb (P i) (m - 1) = tb (R i) (m - 1)) by (unfold AddProps.tb; change (Nat.testbit (P i) (m - 1)) with (neg m (P i)); rewrite SG; reflexivity). rewrite T. apply (char2_double F C2). }
    eapply can_bind; [apply (can_computed F C2 basis n _ 1 false _ (fun i => packed F basis m (tb (D i)))); [discriminate|]|intros dp].
    { intros w HW i Hi. ands. apply (holdn_packed F basis n); auto; lia. }
    eapply can_bind; [apply (can_computed F C2 basis n _ 1 false _ (fun i => packed F basis m (tb (R i)))); [discriminate|]|intros rp].
    { intros w HW i Hi. ands. apply (holdn_packed F basis n); auto; lia. }
    destruct (mul_ss_honest F C2 basis n m lb g qb db Q D Hm ltac:(intros i; split; [apply LQ|apply LD])) as (H & LH & CM & EM).
    set (lo := fun i => (Q i * D i) mod 2 ^ m) in *. assert (LL : forall i, lo i < 2 ^ m) by (intros i; apply Nat.mod_upper_bound; lia).
    eapply can_bind with (Q := fun w r => holdn n m w (ms_low_bits r) lo /\ holdn n m w (ms_high_bits r) H).
    { eapply can_conseq; [exact CM| |intros w a _ K; exact K]. intros w HW. ands. auto. }
    intros mi. eapply can_bind; [apply can_nonzero|intros u1].
    { intros w HW i Hi. ands. cbn [fst snd] in *. match goal with K : forall i, w qin i = _ |- _ => rewrite K end. intros EZ.
      pose proof (HI (tb (Q i)) (fun j => tb_isbit F (Q i) j) EZ) as ZJ. assert (ZQ : bnum (tb (Q i)) m = 0) by (now apply (bnum_zero F)). rewrite bnum_tb, Nat.mod_small in ZQ by apply LQ. specialize (LQ i). lia. }
    assert (BP : forall i, sext m (P i) < 2 ^ (2 * m)) by (intros i; now apply sext_lt). assert (BR : forall i, sext m (R i) < 2 ^ (2 * m)) by (intros i; now apply sext_lt). assert (BQ : forall i, sext m (Q i) < 2 ^ (2 * m)) by (intros i; apply sext_lt; apply LQ).
    assert (BA : forall i, lo i + 2 ^ m * H i < 2 ^ (2 * m)) by (intros i; specialize (LL i); specialize (LH i); rewrite P2; nia).
    eapply can_bind with (Q := fun w g => holdn n (2 * m) w (wa_zout g) (fun i => sext m (P i))).
    { eapply can_conseq; [apply (wide_add_bits n lb (2 * m) (cat m (ms_low_bits mi) (ms_high_bits mi)) (se m rb) true (fun i => lo i + 2 ^ m * H i) (fun i => sext m (R i)) c (fun i => sext m (P i)))| |intros w a _ K; exact K].
      - lia.
      - exact BA.
      - exact BR.
      - exact BP.
      - intros i. specialize (EM i). specialize (EQ i). rewrite pow_Z in EM. change ((Q i * D i) mod 2 ^ m) with (lo i) in EM. set (M2 := 2 ^ (2 * m)) in *. assert (M0 : 0 < M2) by (specialize (BP i); lia).
        exists ((lo i + 2 ^ m * H i + sext m (R i) + (if c i then 1 else 0)) / M2). set (T := lo i + 2 ^ m * H i + sext m (R i) + (if c i then 1 else 0)).
        assert (ET : T mod M2 = sext m (P i)); [|pose proof (Nat.div_mod T M2 ltac:(lia)); lia].
        apply Nat2Z.inj. rewrite Nat2Z.inj_mod. unfold T. rewrite !(Nat2Z.inj_add _ (if c i then 1 else 0)), (Nat2Z.inj_add _ (sext m (R i))).
        set (A := lo i + 2 ^ m * H i) in *. rewrite <- Z.add_assoc, <- Z.add_mod_idemp_l, EM, Z.add_mod_idemp_l by lia.
        pose proof (sext_Z m (R i) Hm (LR i)) as SR. pose proof (sext_Z m (P i) Hm (LP i)) as SP. fold M2 in SR, SP. rewrite SG in SP. specialize (BP i). fold M2 in BP.
        replace (Z.of_nat (if c i then 1 else 0)) with (if c i then 1 else 0)%Z by (destruct (c i); reflexivity).
        destruct (neg m (R i)).
        + symmetry. apply (Z.mod_unique _ _ 0); lia.
        + symmetry. apply (Z.mod_unique _ _ 0); lia.
      - intros w HW. ands. split; [apply cat_holdn; auto|now apply se_holdn]. }
    intros sm. eapply can_bind; [apply (can_from_fn F basis n tt _ (fun _ _ _ => True)); intros j Hj; apply can_zero|intros u2].
    { intros w HW i Hi. ands. cbn [fst] in Hi. cbn [fst snd eeval SignedModel.ECol'].
      match goal with K : holdn n (2 * m) w (wa_zout sm) _, K' : holdn n m w pb P |- _ => rewrite K, (se_holdn n m w pb P Hm LP K') by lia end. apply (char2_double F C2). }
    eapply can_bind with (Q := fun w r => holdn n (2 * m) w (sc_bits r) (fun i => signed_by (2 * m) (neg m (R i)) (sext m (R i)))).
    { eapply can_conseq; [apply (sign_can F C2 basis n (2 * m) (se m rb) (SignedModel.ECol' F (nthc rb (m - 1))) (fun i => sext m (R i)) (fun i => neg m (R i)))| |intros w a _ K; exact K]; [lia|exact BR|].
      intros w HW. ands. split; [now apply se_holdn|]. intros i Hi. cbn [eeval SignedModel.ECol']. match goal with K : holdn n m w rb R |- _ => apply (K (m - 1)); lia end. }
    intros ar. eapply can_bind with (Q := fun w r => holdn n (2 * m) w (sc_bits r) (fun i => signed_by (2 * m) (negb (neg m (Q i))) (sext m (Q i)))).
    { eapply can_conseq; [apply (sign_can F C2 basis n (2 * m) (se m qb) (EAdd F (SignedModel.ECol' F (nthc qb (m - 1))) (EConst F f1)) (fun i => sext m (Q i)) (fun i => negb (neg m (Q i))))| |intros w a _ K; exact K]; [lia|exact BQ|].
      intros w HW. ands. split; [apply se_holdn; auto; apply LQ|]. intros i Hi. cbn [eeval SignedModel.ECol']. match goal with K : holdn n m w qb Q |- _ => rewrite (K (m - 1)) by lia end.
      unfold AddProps.tb, neg. destruct (Nat.testbit (Q i) (m - 1)); cbn [negb]; [exact C2|ring]. }
    intros nq. set (x1 := fun i => signed_by (2 * m) (neg m (R i)) (sext m (R i))) in *. set (x2 := fun i => signed_by (2 * m) (negb (neg m (Q i))) (sext m (Q i))) in *.
    assert (E1 : forall i, Z.of_nat (x1 i) = Z.abs (sval m (R i))) by (intros i; apply abs_sext; auto).
    assert (E2 : forall i, Z.of_nat (x2 i) = (Z.of_nat (2 ^ (2 * m)) - Z.abs (sval m (Q i)))%Z) by (intros i; specialize (LQ i); apply neg_abs_sext; lia).
    assert (R2 : forall i, (Z.abs (sval m (Q i)) <= Z.of_nat (2 ^ (m - 1)))%Z) by (intros i; pose proof (sval_range m (Q i) Hm (proj2 (LQ i))); lia).
    assert (HB : 2 ^ (m - 1) <= 2 ^ (2 * m - 1)) by (apply Nat.pow_le_mono_r; lia).
    eapply can_bind with (Q := fun w g => holdn n (2 * m) w (wa_zout g) (fun i => x1 i + x2 i)).
    { eapply can_conseq; [apply (wide_add_bits n lb (2 * m) (sc_bits ar) (sc_bits nq) false x1 x2 (fun _ => false) (fun i => x1 i + x2 i))| |intros w a _ K; exact K].
      - lia.
      - intros i. specialize (E1 i). specialize (AB i). specialize (R2 i). lia.
      - intros i. specialize (E2 i). specialize (AB i). lia.
      - intros i. specialize (E1 i). specialize (E2 i). specialize (AB i). lia.
      - intros i. exists 0. lia.
      - intros w HW. ands. auto. }
    intros sb. eapply can_bind; [apply can_zero|intros u3].
    { intros w HW i Hi. ands. cbn [fst] in Hi. cbn [fst snd eeval SignedModel.ECol']. match goal with K : holdn n (2 * m) w (wa_zout sb) _ |- _ => rewrite (K (2 * m - 1)) by lia end.
      unfold AddProps.tb. fold (neg (2 * m) (x1 i + x2 i)). specialize (E1 i). specialize (E2 i). specialize (AB i). specialize (R2 i). rewrite neg_spec by lia. replace (2 ^ (2 * m - 1) <=? x1 i + x2 i) with true; [exact C2|]. symmetry. apply Nat.leb_le. lia. }
    apply can_ret. intros w HW. ands. cbn [e_p_bits e_q_bits e_div_bits e_rem_bits]. auto.
  Qed.

  (** Quotient and remainder, rounded towards zero, fit unless the smallest number is divided by minus one. *)
  Lemma quot_range m (p q : Z) : let h := Z.of_nat (2 ^ (m - 1)) in (-h <= p < h -> -h <= q < h -> q <> 0 -> ~ (p = -h /\ q = -1) -> -h <= Z.quot p q < h)%Z.
  Proof.
    intros h HP HQ Q0 NO. destruct (Z.eq_dec q (-1)) as [->|N1]; [replace (Z.quot p (-1)) with (- p)%Z by (change (-1)%Z with (- (1))%Z; rewrite Z.quot_opp_r, Z.quot_1_r by lia; reflexivity); lia|].
    destruct (Z.eq_dec q 1) as [->|N2]; [rewrite Z.quot_1_r; lia|].
    assert (A : (Z.abs (Z.quot p q) <= Z.abs p / 2)%Z).
    { rewrite <- Z.quot_abs by auto. rewrite Z.quot_div_nonneg by lia. apply Z.div_le_compat_l; lia. }
    assert (B : (Z.abs p / 2 <= h / 2)%Z) by (apply Z.div_le_mono; lia). assert (C : (h / 2 < h)%Z) by (apply Z.div_lt; lia). lia.
  Qed.

  (** DivSS32: for all dividends and nonzero divisors, except for the overflow and for exact divisions of negative numbers, there are
      satisfying values with the quotient and remainder rounded towards zero. *)
  Theorem div_ss_complete lb m g t r t' : 0 < m -> basis_indep F basis m -> div_ss_new F basis lb m g t = (r, t') ->
    forall n w (P Q : nat -> Z), let h := Z.of_nat (2 ^ (m - 1)) in (forall w', agree F (len t) w w' -> satisfies F basis n w' t) ->
    (forall i, -h <= P i < h /\ -h <= Q i < h /\ Q i <> 0 /\ ~ (P i = -h /\ Q i = -1) /\ ~ (P i < 0 /\ Z.rem (P i) (Q i) = 0))%Z ->
    exists w', agree F (len t) w w' /\ satisfies F basis n w' t' /\ holdn n m w' (e_p_bits r) (fun i => enc m (P i)) /\ holdn n m w' (e_q_bits r) (fun i => enc m (Q i)) /\
      holdn n m w' (e_div_bits r) (fun i => enc m (Z.quot (P i) (Q i))) /\ holdn n m w' (e_rem_bits r) (fun i => enc m (Z.rem (P i) (Q i))).
  Proof.
    intros Hm HI E n w P Q h HS HB.
    assert (SP : forall i, sval m (enc m (P i)) = P i) by (intros i; apply sval_enc; [exact Hm|apply (HB i)]). assert (SQ : forall i, sval m (enc m (Q i)) = Q i) by (intros i; apply sval_enc; [exact Hm|apply (HB i)]).
    assert (RB : forall i, (Z.abs (Z.rem (P i) (Q i)) < Z.abs (Q i) /\ (0 <= P i -> 0 <= Z.rem (P i) (Q i)) /\ (P i <= 0 -> Z.rem (P i) (Q i) <= 0))%Z).
    { intros i. destruct (HB i) as (_ & _ & Q0 & _). pose proof (Z.rem_bound_abs (P i) (Q i) Q0). split; [auto|]. split; intros HP; [apply Z.rem_nonneg; auto|apply Z.rem_nonpos; auto]. }
    assert (SR : forall i, sval m (enc m (Z.rem (P i) (Q i))) = Z.rem (P i) (Q i)) by (intros i; apply sval_enc; [exact Hm|]; specialize (RB i); destruct (HB i) as (? & ? & _); fold h; lia).
    assert (SD : forall i, sval m (enc m (Z.quot (P i) (Q i))) = Z.quot (P i) (Q i)) by (intros i; apply sval_enc; [exact Hm|]; destruct (HB i) as (B1 & B2 & B3 & B4 & _); now apply quot_range).
    refine (can_run F basis n _ _ _ t r t' w (div_ss_can n m lb g _ _ _ _ (fun _ => false) Hm HI (fun i => enc_lt m _) _ (fun i => enc_lt m _) (fun i => enc_lt m _) _ _ _) E (fun w' A' => conj (HS w' A') I)).
    - intros i. split; [|apply enc_lt]. destruct (HB i) as (_ & _ & Q0 & _). destruct (Nat.eq_dec (enc m (Q i)) 0) as [Z0|]; [|lia]. apply (sval_zero m _ Hm (enc_lt m _)) in Z0. rewrite SQ in Z0. contradiction.
    - intros i. rewrite !(sval_neg m _ Hm (enc_lt m _)), SP, SR. specialize (RB i). destruct (HB i) as (_ & _ & _ & _ & NE). destruct (Z.ltb_spec (P i) 0), (Z.ltb_spec (Z.rem (P i) (Q i)) 0); try reflexivity; exfalso; [apply NE|]; lia.
    - intros i. rewrite SR, SQ. apply RB.
    - intros i. cbv beta. rewrite SP, SQ, SD, SR. destruct (HB i) as (_ & _ & Q0 & _). pose proof (Z.quot_rem (P i) (Q i) Q0). lia.
  Qed.

  (** DivSS32 also accepts a wrong remainder, one too small, whenever that remainder has the sign of the dividend and is smaller than
      the divisor: for every inexact division of a positive number, and for a negative one unless the remainder is extreme. *)
  Theorem div_ss_refuted lb m g t r t' : 0 < m -> basis_indep F basis m -> div_ss_new F basis lb m g t = (r, t') ->
    forall n w (P Q : nat -> Z), let h := Z.of_nat (2 ^ (m - 1)) in (forall w', agree F (len t) w w' -> satisfies F basis n w' t) ->
    (forall i, -h <= P i < h /\ -h <= Q i < h /\ Q i <> 0 /\ ~ (P i = -h /\ Q i = -1) /\ (0 <= P i /\ Z.rem (P i) (Q i) <> 0 \/ P i < 0 /\ Z.abs (Z.rem (P i) (Q i)) + 1 < Z.abs (Q i)))%Z ->
    exists w', agree F (len t) w w' /\ satisfies F basis n w' t' /\ holdn n m w' (e_p_bits r) (fun i => enc m (P i)) /\ holdn n m w' (e_q_bits r) (fun i => enc m (Q i)) /\
      holdn n m w' (e_div_bits r) (fun i => enc m (Z.quot (P i) (Q i))) /\ holdn n m w' (e_rem_bits r) (fun i => enc m (Z.rem (P i) (Q i) - 1)).
  Proof.
    intros Hm HI E n w P Q h HS HB.
    assert (SP : forall i, sval m (enc m (P i)) = P i) by (intros i; apply sval_enc; [exact Hm|apply (HB i)]). assert (SQ : forall i, sval m (enc m (Q i)) = Q i) by (intros i; apply sval_enc; [exact Hm|apply (HB i)]).
    assert (RB : forall i, (Z.abs (Z.rem (P i) (Q i)) < Z.abs (Q i) /\ (0 <= P i -> 0 <= Z.rem (P i) (Q i)) /\ (P i <= 0 -> Z.rem (P i) (Q i) <= 0))%Z).
    { intros i. destruct (HB i) as (_ & _ & Q0 & _). pose proof (Z.rem_bound_abs (P i) (Q i) Q0). split; [auto|]. split; intros HP; [apply Z.rem_nonneg; auto|apply Z.rem_nonpos; auto]. }
    assert (SR : forall i, sval m (enc m (Z.rem (P i) (Q i) - 1)) = (Z.rem (P i) (Q i) - 1)%Z) by (intros i; apply sval_enc; [exact Hm|]; specialize (RB i); destruct (HB i) as (? & ? & _ & _ & ?); fold h; lia).
    assert (SD : forall i, sval m (enc m (Z.quot (P i) (Q i))) = Z.quot (P i) (Q i)) by (intros i; apply sval_enc; [exact Hm|]; destruct (HB i) as (B1 & B2 & B3 & B4 & _); now apply quot_range).
    refine (can_run F basis n _ _ _ t r t' w (div_ss_can n m lb g _ _ _ _ (fun _ => true) Hm HI (fun i => enc_lt m _) _ (fun i => enc_lt m _) (fun i => enc_lt m _) _ _ _) E (fun w' A' => conj (HS w' A') I)).
    - intros i. split; [|apply enc_lt]. destruct (HB i) as (_ & _ & Q0 & _). destruct (Nat.eq_dec (enc m (Q i)) 0) as [Z0|]; [|lia]. apply (sval_zero m _ Hm (enc_lt m _)) in Z0. rewrite SQ in Z0. contradiction.
    - intros i. rewrite !(sval_neg m _ Hm (enc_lt m _)), SP, SR. specialize (RB i). destruct (HB i) as (_ & _ & _ & _ & NE). destruct (Z.ltb_spec (P i) 0), (Z.ltb_spec (Z.rem (P i) (Q i) - 1) 0); try reflexivity; exfalso; lia.
    - intros i. rewrite SR, SQ. specialize (RB i). destruct (HB i) as (_ & _ & _ & _ & NE). lia.
    - intros i. cbv beta. rewrite SP, SQ, SD, SR. destruct (HB i) as (_ & _ & Q0 & _). pose proof (Z.quot_rem (P i) (Q i) Q0). lia.
  Qed.
End Div.
