(** C46, third part: multiplication by exponentiation (Mul), and what goes wrong in MulSS32 and DivUU32. *)
Require Import Coq.ZArith.ZArith Coq.Arith.Arith Coq.Lists.List Coq.Bool.Bool Lia.
From Verif Require Import Base.Fld Base.Lists Base.Sums M3.TableModel M3.TableProofs M3.GadgetModel M3.BitLemmas M3.AddProps M3.WideProps.
Import ListNotations.
Local Open Scope nat_scope.

(** [g] has multiplicative order [M]. *)
Definition has_order (F : field) (g : F) (M : nat) : Prop := fpow g M = f1 /\ forall a, 0 < a < M -> fpow g a <> f1.

(** Split all conjunctions among the hypotheses. *)
Ltac ands := repeat match goal with H : _ /\ _ |- _ => destruct H end.

Section Mul.
  Variable F : field.
  Hypothesis C2 : char2 F.
  Variable basis : nat -> F.
  Add Ring Fring : (f_ring F).
  Notation wit := (wit F).
  Notation b2n := (b2n F).
  Notation bnum := (bnum F).
  Notation isbit := (isbit F).
  Notation tb := (tb F).
  Notation num := (num F).
  Notation bitcols := (bitcols F).
  Notation hold := (hold F).
  Notation below := (below F).
  Notation len t := (length (t_cols F t)).

  Lemma fpow_sq (g : F) a : fpow (g * g)%F a = fpow g (2 * a).
  Proof. rewrite fpow_mul_l, <- fpow_add. f_equal. lia. Qed.
  Lemma squarings_pow n : forall g : F, squarings F n g = fpow g (2 ^ n).
  Proof. induction n as [|n IH]; intros g; cbn [squarings]; [cbn; ring|]. rewrite IH, fpow_sq, Nat.pow_succ_r'. reflexivity. Qed.
  Fixpoint lnum (l : list F) : nat := match l with [] => 0 | b :: r => b2n b + 2 * lnum r end.
  Lemma exp_bits_pow l : forall g, exp_bits F g l = fpow g (lnum l).
  Proof.
    induction l as [|b r IH]; intros g; cbn [exp_bits lnum]; [reflexivity|]. rewrite IH, fpow_sq, fpow_add. f_equal. unfold AddProps.b2n. destruct (feqb b f0); cbn; [reflexivity|ring].
  Qed.
  Lemma bnum_S f k : bnum f (S k) = b2n (f 0) + 2 * bnum (fun j => f (S j)) k.
  Proof.
    induction k as [|k IH]; [cbn; lia|]. change (bnum f (S (S k))) with (bnum f (S k) + b2n (f (S k)) * 2 ^ S k). rewrite IH. cbn [AddProps.bnum]. rewrite Nat.pow_succ_r'. lia.
  Qed.
  Lemma lnum_cols w i l : lnum (map (fun c => w c i) l) = num (length l) w l i.
  Proof.
    unfold WideProps.num. induction l as [|c l IH]; [reflexivity|]. cbn [map lnum length]. rewrite IH, bnum_S. reflexivity.
  Qed.
  Lemma bnum_tb a k : bnum (tb a) k = a mod 2 ^ k.
  Proof.
    revert a. induction k as [|k IH]; intros a; [cbn; now rewrite ?Nat.mod_1_r|]. rewrite bnum_S.
    rewrite (bnum_ext F (fun j => tb a (S j)) (tb (a / 2)) k) by (intros j _; unfold AddProps.tb; now rewrite testbit_div2'). rewrite IH.
    rewrite Nat.pow_succ_r', Nat.mod_mul_r by (try apply Nat.pow_nonzero; lia). f_equal. unfold AddProps.tb.
    pose proof (Nat.bit0_mod a) as B. unfold Nat.b2n in B. destruct (Nat.testbit a 0); rewrite ?b2n_0, ?b2n_1; exact B.
  Qed.

  Lemma order_inj g M a b : has_order F g M -> a < M -> b < M -> fpow g a = fpow g b -> a = b.
  Proof.
    intros [H1 H2].
    assert (K : forall a b, a < b -> b < M -> fpow g a <> fpow g b).
    { clear a b. intros a b Hab Hb E. apply (H2 (b - a)); [lia|]. 
      assert (P0 : fpow g a <> f0).
      { intros Z. assert (fpow g M = f0); [|rewrite H1 in H; now apply (f_10 F)]. replace M with (a + (M - a)) by lia. rewrite fpow_add, Z. ring. }
      apply (fmul_cancel_l F (fpow g a)); [exact P0|]. rewrite <- fpow_add. replace (a + (b - a)) with b by lia. rewrite <- E. ring. }
    intros Ha Hb E. destruct (Nat.lt_trichotomy a b) as [L|[L|L]]; [|exact L|]; exfalso; [now apply (K a b)|now apply (K b a)].
  Qed.

  Lemma mul_ens n m g x y : ens F basis n (mul_with_inputs F basis m g x y) (fun w r =>
      m_x_bits r = x /\ m_y_bits r = y /\ length (m_low_bits r) = m /\ length (m_high_bits r) = m /\ bitcols n m w (m_low_bits r) /\ bitcols n m w (m_high_bits r) /\
      (forall i, i < n -> w (m_xin r) i = eeval F w i (pack_fp F basis x)) /\
      (forall i, i < n -> (w (nthc x 0) i * w (nthc y 0) i)%F = w (nthc (m_low_bits r) 0) i) /\
      (forall i, i < n -> fpow g (num (length x) w x i * num (length y) w y i) = fpow g (num m w (m_low_bits r) i + 2 ^ m * num m w (m_high_bits r) i))).
  Proof.
    unfold mul_with_inputs.
    eapply ens_conseq; [eapply ens_bind; [apply (ens_computed F C2)|intros xin; eapply ens_bind; [apply (ens_computed F C2)|intros yin; eapply ens_bind; [apply ens_col|intros gx; eapply ens_bind; [apply ens_col|intros gxy]]]]|].
    - eapply ens_bind; [apply (ens_from_fn F basis n 0 _ (fun j w c => forall i, i < n * 1 -> isbit (w c i))); intros; apply ens_committed|intros hi].
      eapply ens_bind; [apply (ens_from_fn F basis n 0 _ (fun j w c => forall i, i < n * 1 -> isbit (w c i))); intros; apply ens_committed|intros lo].
      eapply ens_bind; [eapply ens_true, (ens_computed F C2)|intros ohi]. eapply ens_bind; [eapply ens_true, (ens_computed F C2)|intros olo].
      eapply ens_bind; [apply ens_col|intros glo]. eapply ens_bind; [apply ens_col|intros ghi]. eapply ens_bind; [apply ens_zero|intros u1]. eapply ens_bind; [apply ens_zero|intros u2].
      apply (ens_ret F basis n (mkMul x y hi lo xin yin ohi olo) (fun _ b => b = mkMul x y hi lo xin yin ohi olo)). reflexivity.
    - intros w r (xin & X1 & yin & X2 & gx & X3 & gxy & X4 & hi & (X5 & X5') & lo & (X6 & X6') & ohi & _ & olo & _ & glo & X7 & ghi & X8 & u1 & X9 & u2 & X10 & ->).
      cbn [m_x_bits m_y_bits m_low_bits m_high_bits m_xin]. split; [reflexivity|]. split; [reflexivity|]. split; [exact X6|]. split; [exact X5|]. split.
      + intros j Hj i Hi. apply X6'; lia.
      + split; [intros j Hj i Hi; apply X5'; lia|]. split; [intros i Hi; apply X1; lia|]. split.
        * intros i Hi. specialize (X9 i). cbn [fst snd eeval GadgetModel.ECol'] in X9. apply (char2_add_eq0 F C2). apply X9. lia.
        * intros i Hi. specialize (X10 i). cbn [fst snd eeval GadgetModel.ECol'] in X10. cbn [col_ok] in X3, X4, X7, X8. rewrite X4, X3, X7, X8 in X10 by lia. rewrite !exp_bits_pow, !lnum_cols in X10.
          assert (X5c : @length col hi = m) by exact X5. assert (X6c : @length col lo = m) by exact X6. rewrite squarings_pow, X5c, X6c in X10. assert (Z := X10 ltac:(lia)). rewrite <- !fpow_mul, <- fpow_add in Z. rewrite (Nat.mul_comm (num (length y) w y i)) in Z. rewrite (Nat.mul_comm (num m w hi i)) in Z. apply (char2_add_eq0 F C2). exact Z.
  Qed.

  (** Mul: in every satisfying assignment the output (high and low half) is the product of the inputs. *)
  Theorem mul_sound m g x y t r t' : 0 < m -> length x = m -> length y = m -> has_order F g (2 ^ (2 * m) - 1) -> mul_with_inputs F basis m g x y t = (r, t') ->
    forall n w, satisfies F basis n w t' -> bitcols n m w x -> bitcols n m w y ->
    bitcols n m w (m_low_bits r) /\ bitcols n m w (m_high_bits r) /\
    forall i, i < n -> num m w x i * num m w y i = num m w (m_low_bits r) i + 2 ^ m * num m w (m_high_bits r) i.
  Proof.
    intros Hm LX LY HG E n w SW BX BY. destruct (mul_ens n m g x y _ _ _ E w SW) as (_ & _ & _ & _ & _ & BL & BH & _ & HL & HP). split; [exact BL|]. split; [exact BH|].
    intros i Hi. specialize (HP i Hi). specialize (HL i Hi). rewrite LX, LY in HP.
    assert (B1 : num m w x i < 2 ^ m) by apply bnum_bound. assert (B2 : num m w y i < 2 ^ m) by apply bnum_bound.
    assert (B3 : num m w (m_low_bits r) i < 2 ^ m) by apply bnum_bound. assert (B4 : num m w (m_high_bits r) i < 2 ^ m) by apply bnum_bound.
    assert (P2 : 2 ^ (2 * m) = 2 ^ m * 2 ^ m) by (rewrite <- Nat.pow_add_r; f_equal; lia).
    assert (P1 : 2 <= 2 ^ m) by (change 2 with (2 ^ 1) at 1; apply Nat.pow_le_mono_r; lia).
    assert (ODD : forall l, num m w l i mod 2 = b2n (w (nthc l 0) i)).
    { intros l. unfold WideProps.num. destruct m as [|m']; [lia|]. rewrite bnum_S. rewrite Nat.mul_comm, Nat.mod_add by lia. apply Nat.mod_small. pose proof (b2n_le F (w (nthc l 0) i)). lia. }
    set (X := num m w x i) in *. set (Y := num m w y i) in *. set (L := num m w (m_low_bits r) i) in *. set (H := num m w (m_high_bits r) i) in *.
    assert (Q1 : X * Y < 2 ^ (2 * m) - 1) by (rewrite P2; nia).
    destruct (Nat.eq_dec (L + 2 ^ m * H) (2 ^ (2 * m) - 1)) as [EM|NM].
    - exfalso. rewrite EM in HP. destruct HG as [G1 G2]. rewrite G1 in HP.
      assert (EL : L = 2 ^ m - 1) by (rewrite P2 in EM; nia).
      assert (L1 : b2n (w (nthc (m_low_bits r) 0) i) = 1).
      { rewrite <- ODD. fold L. rewrite EL. destruct m as [|m']; [lia|]. rewrite Nat.pow_succ_r'. replace (2 * 2 ^ m' - 1) with (1 + (2 ^ m' - 1) * 2) by (pose proof (Nat.pow_nonzero 2 m'); lia). now rewrite Nat.mod_add. }
      assert (X1 : X <> 0 /\ Y <> 0).
      { split; intros Z.
        - assert (ZB : b2n (w (nthc x 0) i) = 0) by (rewrite <- ODD; fold X; now rewrite Z). assert (w (nthc x 0) i = f0) as ZZ by (unfold AddProps.b2n in ZB; destruct (feqb_spec F (w (nthc x 0) i) f0); [auto|discriminate]).
          rewrite <- HL, ZZ in L1. replace (f0 * w (nthc y 0) i)%F with (f0 : F) in L1 by ring. rewrite b2n_0 in L1. lia.
        - assert (ZB : b2n (w (nthc y 0) i) = 0) by (rewrite <- ODD; fold Y; now rewrite Z). assert (w (nthc y 0) i = f0) as ZZ by (unfold AddProps.b2n in ZB; destruct (feqb_spec F (w (nthc y 0) i) f0); [auto|discriminate]).
          rewrite <- HL, ZZ in L1. replace (w (nthc x 0) i * f0)%F with (f0 : F) in L1 by ring. rewrite b2n_0 in L1. lia. }
      apply (G2 (X * Y)); [nia|exact HP].
    - apply (order_inj g (2 ^ (2 * m) - 1)); auto. rewrite P2 in *. nia.
  Qed.

  (** *** Completeness *)
  (** The element with the bits of a column list as coordinates. *)
  Definition packed (m : nat) (f : nat -> F) : F := sumn m (fun j => f j * basis j)%F.
  Lemma sumn_S_l k (f : nat -> F) : sumn (S k) f = (f 0%nat + sumn k (fun j => f (S j)))%F.
  Proof. change (S k) with (1 + k). rewrite sumn_split, sumn_1. reflexivity. Qed.
  Lemma pack_eval w i l : eeval F w i (pack_fp F basis l) = packed (length l) (fun j => w (nthc l j) i).
  Proof.
    unfold pack_fp. assert (G : forall r s e, eeval F w i (fold_left (fun e bi => EAdd F e (EMul F (ECol F (fst bi)) (EConst F (basis (snd bi))))) (combine r (seq s (length r))) e) =
      (eeval F w i e + sumn (length r) (fun j => w (nthc r j) i * basis (s + j)%nat))%F).
    { induction r as [|c r IH]; intros s e; cbn [length seq combine fold_left]; [rewrite sumn_0; ring|]. rewrite IH. cbn [eeval fst snd]. rewrite sumn_S_l. cbn [nthc nth]. rewrite Nat.add_0_r.
      rewrite (sumn_ext F _ (fun j => w (nthc (c :: r) (S j)) i * basis (s + S j)%nat)%F (fun j => w (nthc r j) i * basis (S s + j)%nat)%F) by (intros j _; cbn [nthc nth]; do 2 f_equal; lia). ring. }
    destruct l as [|c l]; [reflexivity|]. cbn [length seq combine]. rewrite G. unfold packed. rewrite sumn_S_l. cbn [eeval nthc nth]. reflexivity.
  Qed.

  (** Row [i] of the columns [l] holds the number [X i]. *)
  Definition holdn (n m : nat) (w : wit) (l : list col) (X : nat -> nat) : Prop := hold n m w l (fun j i => tb (X i) j).
  Lemma holdn_num n m w l X i : holdn n m w l X -> i < n -> num m w l i = X i mod 2 ^ m.
  Proof. intros H Hi. rewrite <- bnum_tb. unfold WideProps.num. apply bnum_ext. intros j Hj. now apply H. Qed.
  Lemma holdn_packed n m w l X i : length l = m -> holdn n m w l X -> i < n -> eeval F w i (pack_fp F basis l) = packed m (tb (X i)).
  Proof. intros E H Hi. rewrite pack_eval, E. unfold packed. apply sumn_ext. intros j Hj. f_equal. now apply H. Qed.

  Lemma mul_can n m g x y (X Y : nat -> nat) : 0 < m -> (forall i, i < n -> X i < 2 ^ m /\ Y i < 2 ^ m) ->
    can F basis n (fun w => length x = m /\ length y = m /\ holdn n m w x X /\ holdn n m w y Y) (mul_with_inputs F basis m g x y)
      (fun w r => m_x_bits r = x /\ m_y_bits r = y /\ (length (m_low_bits r) = m /\ length (m_high_bits r) = m) /\ holdn n m w (m_low_bits r) (fun i => (X i * Y i) mod 2 ^ m) /\ holdn n m w (m_high_bits r) (fun i => X i * Y i / 2 ^ m)).
  Proof.
    intros Hm HB. unfold mul_with_inputs.
    set (lo := fun i => (X i * Y i) mod 2 ^ m). set (hi := fun i => X i * Y i / 2 ^ m).
    assert (P0 : 2 ^ m <> 0) by (apply Nat.pow_nonzero; lia).
    assert (HH : forall i, i < n -> hi i < 2 ^ m) by (intros i Hi; destruct (HB i Hi); unfold hi; apply Nat.div_lt_upper_bound; nia).
    assert (HL : forall i, lo i < 2 ^ m) by (intros i; unfold lo; apply Nat.mod_upper_bound; auto).
    eapply can_bind; [apply (can_computed F C2 basis n _ 1 false _ (fun i => packed m (tb (X i)))); [discriminate|]|intros xin].
    { intros w (LX & LY & HX & HY) i Hi. apply (holdn_packed n); auto. lia. }
    eapply can_bind; [apply (can_computed F C2 basis n _ 1 false _ (fun i => packed m (tb (Y i)))); [discriminate|]|intros yin].
    { intros w [(LX & LY & HX & HY) _] i Hi. apply (holdn_packed n); auto. lia. }
    eapply can_bind; [apply (can_col F basis n _ 1 _ (fun i => fpow g (X i)))|intros gx].
    { intros w c [[(LX & LY & HX & HY) _] _] E i Hi. rewrite E, exp_bits_pow, lnum_cols, LX, (holdn_num n m w x X) by (auto; lia). rewrite Nat.mod_small; [reflexivity|]. apply HB. lia. }
    eapply can_bind; [apply (can_col F basis n _ 1 _ (fun i => fpow g (X i * Y i)))|intros gxy].
    { intros w c [[[(LX & LY & HX & HY) _] _] HG] E i Hi. rewrite E, exp_bits_pow, lnum_cols, LY, (holdn_num n m w y Y), HG by (auto; lia). rewrite Nat.mod_small by (apply HB; lia). rewrite <- fpow_mul. f_equal. lia. }
    eapply can_bind; [apply (can_committed_multiple F basis n _ m 1 (fun j i => tb (hi i) j)); intros; apply tb_bit|intros ohi].
    eapply can_bind; [apply (can_committed_multiple F basis n _ m 1 (fun j i => tb (lo i) j)); intros; apply tb_bit|intros olo].
    eapply can_bind; [apply (can_computed F C2 basis n _ 1 false _ (fun i => packed m (tb (hi i)))); [discriminate|]|intros phi].
    { intros w [[_ [L1 H1]] _] i Hi. apply (holdn_packed n); auto; [|lia]. intros j Hj k Hk. now apply H1. }
    eapply can_bind; [apply (can_computed F C2 basis n _ 1 false _ (fun i => packed m (tb (lo i)))); [discriminate|]|intros plo].
    { intros w [[_ [L1 H1]] _] i Hi. apply (holdn_packed n); auto; [|lia]. intros j Hj k Hk. now apply H1. }
    eapply can_bind; [apply (can_col F basis n _ 1 _ (fun i => fpow g (lo i)))|intros glo].
    { intros w c [[[_ [L1 H1]] _] _] E i Hi. rewrite E, exp_bits_pow, lnum_cols. assert (L1c : @length col olo = m) by exact L1. rewrite L1c, (holdn_num n m w olo lo) by (try lia; intros j Hj k Hk; now apply H1).
      rewrite Nat.mod_small; auto. }
    eapply can_bind; [apply (can_col F basis n _ 1 _ (fun i => fpow g (2 ^ m * hi i)))|intros ghi].
    { intros w c [[[[[_ [L2 H2]] [L1 H1]] _] _] _] E i Hi. rewrite E, exp_bits_pow, lnum_cols. assert (L2c : @length col ohi = m) by exact L2. rewrite L2c, (holdn_num n m w ohi hi) by (try lia; intros j Hj k Hk; now apply H2).
      rewrite Nat.mod_small by (apply HH; lia). rewrite squarings_pow, <- fpow_mul. f_equal. lia. }
    eapply can_bind; [apply can_zero|intros u1].
    { intros w HW i Hi. ands. match goal with H : holdn n m w x X, H' : holdn n m w y Y |- _ => rename H into HX, H' into HY end. match goal with H : forall j, j < m -> forall i, w (nth j olo 0) i = _ |- _ => rename H into KLO end. cbn [fst] in Hi. cbn [fst snd eeval GadgetModel.ECol']. rewrite HX, HY by lia. assert (EL : w (nthc olo 0) i = tb (lo i) 0) by (apply KLO; lia). rewrite EL.
      unfold AddProps.tb. fold (bF F (Nat.testbit (X i) 0)) (bF F (Nat.testbit (Y i) 0)) (bF F (Nat.testbit (lo i) 0)). rewrite and_F, (xor_F F C2).
      replace (Nat.testbit (lo i) 0) with (Nat.testbit (X i) 0 && Nat.testbit (Y i) 0); [now rewrite xorb_nilpotent|].
      unfold lo. rewrite Nat.mod_pow2_bits_low by auto. rewrite !Nat.bit0_odd. now rewrite Nat.odd_mul. }
    eapply can_bind; [apply can_zero|intros u2].
    { intros w HW i Hi. ands. match goal with H : forall i, w gxy i = _, H' : forall i, w glo i = _, H'' : forall i, w ghi i = _ |- _ => rename H into HGG, H' into HLO, H'' into HHI end. cbn [fst] in Hi. cbn [fst snd eeval GadgetModel.ECol']. rewrite HGG, HLO, HHI, <- fpow_add.
      replace (lo i + 2 ^ m * hi i) with (X i * Y i); [apply (char2_double F C2)|]. unfold lo, hi. pose proof (Nat.div_mod (X i * Y i) (2 ^ m) P0). lia. }
    apply can_ret. intros w HW. ands. match goal with H : forall j, j < m -> forall i, w (nth j olo 0) i = _, H' : forall j, j < m -> forall i, w (nth j ohi 0) i = _ |- _ => rename H into KLO, H' into KHI end. cbn [m_x_bits m_y_bits m_low_bits m_high_bits]. split; [reflexivity|]. split; [reflexivity|]. split; [split; assumption|]. split; intros j Hj i Hi; [now apply KLO|now apply KHI].
  Qed.

  (** Mul: for all inputs the values written by populate satisfy the table. *)
  Theorem mul_complete m g x y t r t' : 0 < m -> length x = m -> length y = m -> mul_with_inputs F basis m g x y t = (r, t') ->
    forall n w X Y, (forall w', agree F (len t) w w' -> satisfies F basis n w' t) -> below t m x -> below t m y ->
    holdn n m w x X -> holdn n m w y Y -> (forall i, i < n -> X i < 2 ^ m /\ Y i < 2 ^ m) ->
    exists w', agree F (len t) w w' /\ satisfies F basis n w' t' /\ holdn n m w' (m_low_bits r) (fun i => (X i * Y i) mod 2 ^ m) /\ holdn n m w' (m_high_bits r) (fun i => X i * Y i / 2 ^ m).
  Proof.
    intros Hm LX LY E n w X Y HS BX BY HX HY HB.
    destruct (can_run F basis n _ _ _ t r t' w (mul_can n m g x y X Y Hm HB) E) as (w' & A' & S' & (_ & _ & _ & K1 & K2)); [|eauto].
    intros w1 A1. split; [now apply HS|]. split; [exact LX|]. split; [exact LY|]. split; intros j Hj i Hi; [rewrite <- A1 by (apply BX; auto); now apply HX|rewrite <- A1 by (apply BY; auto); now apply HY].
  Qed.

  (** *** Division *)
  (** Different numbers are packed to different elements. *)
  Definition basis_indep (m : nat) : Prop := forall f, (forall j, isbit (f j)) -> packed m f = f0 -> forall j, j < m -> f j = f0.

  Lemma nthc_map k f j : j < k -> nthc (map f (seq 0 k)) j = f j.
  Proof. intros H. unfold nthc. now rewrite (nth_map_seq f k j 0). Qed.

  Lemma tb_lt a m j : a < 2 ^ m -> m <= j -> tb a j = f0.
  Proof. intros H L. unfold AddProps.tb. now rewrite (testbit_high a m j H L). Qed.
  Lemma tb_isbit a j : isbit (tb a j). Proof. apply tb_bit. Qed.
  (** The bits of a number are determined by its value. *)
  Lemma bits_of_num f m a : (forall j, j < m -> isbit (f j)) -> bnum f m = a -> forall j, j < m -> f j = tb a j.
  Proof.
    intros B E j Hj. apply (bnum_inj F f (tb a) m); auto.
    - intros k Hk. apply tb_isbit.
    - rewrite bnum_tb. rewrite E. symmetry. apply Nat.mod_small. rewrite <- E. apply bnum_bound.
  Qed.

  Lemma div_can n m lb g (P Q D R : nat -> nat) (Z : nat -> nat -> F) : 1 < m -> basis_indep m ->
    (forall i, i < n -> P i < 2 ^ m /\ 0 < Q i < 2 ^ m /\ D i < 2 ^ m /\ R i < 2 ^ m /\ Q i * D i + R i = P i) ->
    (forall j i, isbit (Z j i)) -> (forall i, i < n -> Z 0 i = (tb (R i) 0 + tb (Q i) 0)%F) -> (forall i, i < n -> Z (2 * m - 1) i = f1) ->
    can F basis n (fun _ => True) (div_uu_new F basis lb m g)
      (fun w r => holdn n m w (d_p_bits r) P /\ holdn n m w (d_q_bits r) Q /\ holdn n m w (d_div_bits r) D /\ holdn n m w (d_rem_bits r) R).
  Proof.
    intros Hm HI HB BZ Z0 ZT. unfold div_uu_new.
    assert (P2 : 2 ^ (2 * m) = 2 ^ m * 2 ^ m) by (rewrite <- Nat.pow_add_r; f_equal; lia).
    eapply can_bind; [apply (can_col F basis n _ _ _ (fun _ => f0))|intros zero].
    { intros w c _ E i Hi. cbn [length]. now rewrite E, Nat.mod_1_r. }
    eapply can_bind; [apply (can_committed_multiple F basis n _ m 1 (fun j i => tb (P i) j)); intros; apply tb_bit|intros pb].
    eapply can_bind; [apply (can_committed_multiple F basis n _ m 1 (fun j i => tb (Q i) j)); intros; apply tb_bit|intros qb].
    eapply can_bind; [apply (can_computed F C2 basis n _ 1 false _ (fun i => packed m (tb (P i)))); [discriminate|]|intros pin].
    { intros w [[_ [L1 H1]] _] i Hi. apply (holdn_packed n); auto; [|lia]. intros j Hj k Hk. now apply H1. }
    eapply can_bind; [apply (can_computed F C2 basis n _ 1 false _ (fun i => packed m (tb (Q i)))); [discriminate|]|intros qin].
    { intros w [[_ [L1 H1]] _] i Hi. apply (holdn_packed n); auto; [|lia]. intros j Hj k Hk. now apply H1. }
    eapply can_bind; [apply (can_committed_multiple F basis n _ m 1 (fun j i => tb (D i) j)); intros; apply tb_bit|intros db].
    eapply can_bind; [apply (can_committed_multiple F basis n _ m 1 (fun j i => tb (R i) j)); intros; apply tb_bit|intros rb].
    eapply can_bind; [apply (can_computed F C2 basis n _ 1 false _ (fun i => packed m (tb (D i)))); [discriminate|]|intros dp].
    { intros w [[_ [L1 H1]] _] i Hi. apply (holdn_packed n); auto; [|lia]. intros j Hj k Hk. now apply H1. }
    eapply can_bind; [apply (can_computed F C2 basis n _ 1 false _ (fun i => packed m (tb (R i)))); [discriminate|]|intros rp].
    { intros w [[_ [L1 H1]] _] i Hi. apply (holdn_packed n); auto; [|lia]. intros j Hj k Hk. now apply H1. }
    eapply can_bind with (Q := fun w r => m_x_bits r = qb /\ m_y_bits r = db /\ (length (m_low_bits r) = m /\ length (m_high_bits r) = m) /\ holdn n m w (m_low_bits r) (fun i => (Q i * D i) mod 2 ^ m) /\ holdn n m w (m_high_bits r) (fun i => Q i * D i / 2 ^ m)).
    { eapply can_conseq; [apply (mul_can n m g qb db Q D); [lia|intros i Hi; destruct (HB i Hi) as (_ & ? & ? & _); lia]| |intros w a _ H; exact H].
      intros w HW. ands. split; [assumption|]. split; [assumption|]. split; intros j Hj i Hi; unfold nthc; auto. }
    intros mi. eapply can_bind; [apply can_nonzero|intros u1].
    { intros w HW i Hi. ands. cbn [fst snd] in *. match goal with H : forall i, w qin i = _ |- _ => rewrite H end. intros EZ.
      destruct (HB i ltac:(lia)) as (_ & [Q0 Q1] & _). assert (ZQ : bnum (tb (Q i)) m = 0).
      { pose proof (HI (tb (Q i)) (fun j => tb_isbit (Q i) j) EZ) as ZJ. rewrite (bnum_ext F (tb (Q i)) (fun _ => f0) m ZJ). clear. induction m as [|k IH]; cbn [AddProps.bnum]; [reflexivity|]. rewrite IH, b2n_0. lia. }
      rewrite bnum_tb, Nat.mod_small in ZQ by auto. lia. }
    set (prod := map (fun i => if i <? m then nthc (m_low_bits mi) i else nthc (m_high_bits mi) (i - m)) (seq 0 (2 * m))).
    set (ze := fun l => map (fun i => if i <? m then nthc l i else zero) (seq 0 (2 * m))).
    assert (ZE : forall (w : wit) l (X : nat -> nat), (forall i, w zero i = f0) -> (forall j, j < m -> forall i, w (nth j l 0) i = tb (X i) j) -> (forall i, i < n -> X i < 2 ^ m) -> hold n (2 * m) w (ze l) (fun j i => tb (X i) j)).
    { intros w l X Hz Hl HX j Hj i Hi. unfold ze. rewrite nthc_map by auto. destruct (Nat.ltb_spec j m); [now apply Hl|]. rewrite Hz. symmetry. apply (tb_lt _ m); auto. }
    assert (PR : forall (w : wit), holdn n m w (m_low_bits mi) (fun i => (Q i * D i) mod 2 ^ m) -> holdn n m w (m_high_bits mi) (fun i => Q i * D i / 2 ^ m) -> hold n (2 * m) w prod (fun j i => tb (Q i * D i) j)).
    { intros w Hl Hh j Hj i Hi. unfold prod. rewrite nthc_map by auto. destruct (Nat.ltb_spec j m) as [L|L].
      - rewrite Hl by auto. unfold AddProps.tb. now rewrite Nat.mod_pow2_bits_low.
      - rewrite Hh by lia. unfold AddProps.tb. rewrite Nat.div_pow2_bits. now replace (j - m + m) with j by lia. }
    set (cs := fun i => wide_carry F (fun j => tb (Q i * D i) j) (fun j => tb (R i) j) f0).
    eapply can_bind with (Q := fun w g => hold n (2 * m) w (wa_zout g) (fun j i => (tb (Q i * D i) j + tb (R i) j + cs i j)%F)).
    { eapply can_conseq; [apply (wide_add_can F C2 basis n lb (2 * m) prod (ze rb) (mkAddFlags None true true) (fun j i => tb (Q i * D i) j) (fun j i => tb (R i) j) (fun _ => f0))| |].
      - lia.
      - intros; apply tb_isbit.
      - intros; apply tb_isbit.
      - intros; now left.
      - intros w HW. ands. split; [now apply PR|]. split; [apply (ZE w rb R); auto; intros i Hi; apply (HB i Hi)|exact I].
      - intros w a _ (_ & H & _). exact H. }
    intros sm. eapply can_bind; [apply (can_from_fn F basis n tt _ (fun _ _ _ => True)); intros j Hj; apply can_zero|intros u2].
    { intros w HW i Hi. ands. cbn [fst] in Hi. cbn [fst snd eeval GadgetModel.ECol'].
      match goal with H : hold n (2 * m) w (wa_zout sm) _ |- _ => rewrite H by lia end.
      rewrite (ZE w pb P) by (auto; try lia; intros k Hk; apply (HB k Hk)).
      destruct (HB i ltac:(lia)) as (B1 & [B2 B3] & B4 & B5 & B6).
      assert (NZ : bnum (fun j => (tb (Q i * D i) j + tb (R i) j + cs i j)%F) (2 * m) = P i).
      { assert (Bc : forall j, isbit (cs i j)) by (intros k; apply (wide_carry_bit F C2); intros; try apply tb_isbit; now left).
        assert (FA : forall k, k < 2 * m -> b2n (tb (Q i * D i) k) + b2n (tb (R i) k) + b2n (cs i k) = b2n (tb (Q i * D i) k + tb (R i) k + cs i k)%F + 2 * b2n (cs i (S k))).
        { intros k Hk. apply (full_adder F C2 (tb (Q i * D i) k) (tb (R i) k) (cs i k)); auto using tb_isbit. }
        pose proof (ripple F (tb (Q i * D i)) (tb (R i)) (cs i) (fun j => (tb (Q i * D i) j + tb (R i) j + cs i j)%F) (2 * m) FA) as RP.
        rewrite !bnum_tb in RP. change (cs i 0) with (f0 : F) in RP. rewrite b2n_0 in RP.
        assert (2 ^ m < 2 ^ (2 * m)) by (apply Nat.pow_lt_mono_r; lia).
        rewrite (Nat.mod_small (Q i * D i)), (Nat.mod_small (R i)) in RP by lia. rewrite Nat.add_0_r in RP.
        pose proof (b2n_le F (cs i (2 * m))) as LE. rewrite B6 in RP. destruct (b2n (cs i (2 * m))) as [|[|]]; [lia| |lia]. exfalso. rewrite Nat.mul_1_l in RP. clear P2. lia. }
      rewrite <- (bits_of_num (fun j => (tb (Q i * D i) j + tb (R i) j + cs i j)%F) (2 * m) (P i)) by (auto; try lia; intros; repeat apply (bit_add F C2); try apply tb_isbit; apply (wide_carry_bit F C2); intros; try apply tb_isbit; now left).
      apply (char2_double F C2). }
    eapply can_bind with (Q := fun w s => hold n (2 * m) w (ws_zout s) Z).
    { set (bo := fun j i => (tb (R i) (S j) + tb (Q i) (S j) + Z (S j) i)%F).
      eapply can_conseq; [apply (wide_sub_can F C2 basis n lb (2 * m) (ze rb) (ze qb) commit_z (fun j i => tb (R i) j) (fun j i => tb (Q i) j) (fun _ => f0) bo)| |].
      - lia.
      - intros; apply tb_isbit.
      - intros; apply tb_isbit.
      - intros; now left.
      - intros; unfold bo; repeat apply (bit_add F C2); auto using tb_isbit.
      - intros w HW. ands. split; [apply (ZE w rb R); auto; intros i Hi; apply (HB i Hi)|]. split; [apply (ZE w qb Q); auto; intros i Hi; destruct (HB i Hi) as (_ & [? ?] & _); auto|intros i; reflexivity].
      - intros w a _ (_ & H & _) j Hj i Hi. rewrite (H j Hj i Hi). destruct (Nat.eqb_spec j 0) as [->|N]; [rewrite Z0 by auto; ring|].
        unfold bo. replace (S (j - 1)) with j by lia. transitivity ((tb (R i) j + tb (R i) j) + (tb (Q i) j + tb (Q i) j) + Z j i)%F; [ring|]. rewrite !(char2_double F C2). ring. }
    intros sb. eapply can_bind; [apply can_zero|intros u3].
    { intros w HW i Hi. ands. cbn [fst] in Hi. cbn [fst snd eeval GadgetModel.ECol']. match goal with H : hold n (2 * m) w (ws_zout sb) _ |- _ => rewrite H by lia end. rewrite ZT by lia. exact C2. }
    apply can_ret. intros w HW. ands. cbn [d_p_bits d_q_bits d_div_bits d_rem_bits]. repeat split; intros j Hj i Hi; unfold nthc; auto.
  Qed.

  (** DivUU32: for all dividends and nonzero divisors there are satisfying values in which the output is the quotient and the
      remainder. *)
  Theorem div_uu_complete lb m g t r t' : 1 < m -> basis_indep m -> div_uu_new F basis lb m g t = (r, t') ->
    forall n w P Q, (forall w', agree F (len t) w w' -> satisfies F basis n w' t) -> (forall i, i < n -> P i < 2 ^ m /\ 0 < Q i < 2 ^ m) ->
    exists w', agree F (len t) w w' /\ satisfies F basis n w' t' /\
      holdn n m w' (d_p_bits r) P /\ holdn n m w' (d_q_bits r) Q /\ holdn n m w' (d_div_bits r) (fun i => P i / Q i) /\ holdn n m w' (d_rem_bits r) (fun i => P i mod Q i).
  Proof.
    intros Hm HI E n w P Q HS HB.
    assert (P2 : 2 ^ (2 * m) = 2 * 2 ^ (2 * m - 1)) by (rewrite <- Nat.pow_succ_r'; f_equal; lia).
    assert (P3 : 2 ^ m <= 2 ^ (2 * m - 1)) by (apply Nat.pow_le_mono_r; lia).
    set (S := fun i => P i mod Q i + 2 ^ (2 * m) - Q i).
    refine (can_run F basis n _ _ _ t r t' w (div_can n m lb g P Q (fun i => P i / Q i) (fun i => P i mod Q i) (fun j i => tb (S i) j) Hm HI _ (fun j i => tb_isbit _ _) _ _) E (fun w' A' => conj (HS w' A') I)).
    - intros i Hi. destruct (HB i Hi) as (B1 & B2 & B3). split; [auto|]. split; [auto|]. split; [apply Nat.div_lt_upper_bound; nia|].
      pose proof (Nat.mod_upper_bound (P i) (Q i) ltac:(lia)). split; [lia|]. pose proof (Nat.div_mod (P i) (Q i) ltac:(lia)). lia.
    - intros i Hi. destruct (HB i Hi) as (B1 & B2 & B3). unfold AddProps.tb. fold (bF F (Nat.testbit (P i mod Q i) 0)) (bF F (Nat.testbit (Q i) 0)) (bF F (Nat.testbit (S i) 0)). rewrite (xor_F F C2). f_equal.
      rewrite !Nat.bit0_odd. unfold S. rewrite Nat.odd_sub by lia. rewrite P2, Nat.odd_add, Nat.odd_mul. cbn [Nat.odd Nat.even negb andb]. now rewrite xorb_false_r.
    - intros i Hi. destruct (HB i Hi) as (B1 & B2 & B3). pose proof (Nat.mod_upper_bound (P i) (Q i) ltac:(lia)). unfold AddProps.tb. rewrite testbit_top by (unfold S; lia). replace (2 ^ (2 * m - 1) <=? S i) with true; [reflexivity|]. symmetry. apply Nat.leb_le. unfold S. lia.
  Qed.

  (** DivUU32 also accepts a wrong quotient: zero with the dividend as remainder, for all dividends and nonzero divisors. *)
  Theorem div_uu_refuted lb m g t r t' : 1 < m -> basis_indep m -> div_uu_new F basis lb m g t = (r, t') ->
    forall n w P Q, (forall w', agree F (len t) w w' -> satisfies F basis n w' t) -> (forall i, i < n -> P i < 2 ^ m /\ 0 < Q i < 2 ^ m) ->
    exists w', agree F (len t) w w' /\ satisfies F basis n w' t' /\
      holdn n m w' (d_p_bits r) P /\ holdn n m w' (d_q_bits r) Q /\ holdn n m w' (d_div_bits r) (fun _ => 0) /\ holdn n m w' (d_rem_bits r) P.
  Proof.
    intros Hm HI E n w P Q HS HB.
    set (Z := fun j i => if j =? 0 then (tb (P i) 0 + tb (Q i) 0)%F else f1 : F).
    refine (can_run F basis n _ _ _ t r t' w (div_can n m lb g P Q (fun _ => 0) P Z Hm HI _ _ (fun i _ => eq_refl) _) E (fun w' A' => conj (HS w' A') I)).
    - intros i Hi. destruct (HB i Hi) as (B1 & B2). repeat split; try lia.
    - intros j i. unfold Z. destruct (j =? 0); [apply (bit_add F C2); apply tb_isbit|now right].
    - intros i Hi. unfold Z. destruct (Nat.eqb_spec (2 * m - 1) 0); [lia|reflexivity].
  Qed.

  Lemma mul_sound_ens n m g x y : 0 < m -> has_order F g (2 ^ (2 * m) - 1) -> ens F basis n (mul_with_inputs F basis m g x y) (fun w r =>
      length x = m -> length y = m -> bitcols n m w x -> bitcols n m w y -> bitcols n m w (m_low_bits r) /\ bitcols n m w (m_high_bits r) /\
      forall i, i < n -> num m w x i * num m w y i = num m w (m_low_bits r) i + 2 ^ m * num m w (m_high_bits r) i).
  Proof. intros Hm HG t r t' E w SW. split; [apply (mul_ens n m g x y t r t' E w SW)|]. intros LX LY BX BY. apply (mul_sound m g x y t r t' Hm LX LY HG E n w SW BX BY). Qed.
  Lemma wide_add_sound_ens n lb m x y flags : 0 < m -> carry_in_bit flags = None -> ens F basis n (wide_add_new F lb m x y flags) (fun w g => bitcols n m w x -> bitcols n m w y -> bitcols n m w (wa_zout g) /\
      forall i, i < n -> exists c0, c0 <= 1 /\ num m w x i + num m w y i + c0 = num m w (wa_zout g) i + 2 ^ m * b2n (w (wa_final_carry g) i)).
  Proof.
    intros Hm EF t g t' E w SW. split; [apply (wide_add_ens F C2 basis n lb m x y flags t g t' E w SW)|]. intros BX BY.
    destruct (wide_add_sound F C2 basis lb m x y flags t g t' Hm E n w SW BX BY) as [BZ H]; [now rewrite EF|]. split; [exact BZ|]. intros i Hi. destruct (H i Hi) as (c0 & A1 & A2 & _). eauto.
  Qed.
  Lemma ens_bits n m : ens F basis n (add_committed_multiple F m 1 true) (fun w l => length l = m /\ bitcols n m w l).
  Proof.
    unfold add_committed_multiple. eapply ens_conseq; [apply (ens_from_fn F basis n 0 _ (fun j w c => forall i, i < n * 1 -> isbit (w c i))); intros; apply ens_committed|].
    intros w l [L H]. split; [exact L|]. intros j Hj i Hi. apply H; lia.
  Qed.
  Lemma bnum_app f a b : bnum f (a + b) = bnum f a + 2 ^ a * bnum (fun j => f (a + j)) b.
  Proof.
    induction b as [|b IH]; [rewrite Nat.add_0_r; cbn; lia|]. rewrite Nat.add_succ_r. cbn [AddProps.bnum]. rewrite IH, Nat.pow_add_r. lia.
  Qed.
  Lemma bnum_zero k f : (forall j, j < k -> f j = f0) -> bnum f k = 0.
  Proof. intros H. induction k as [|k IH]; cbn [AddProps.bnum]; [reflexivity|]. rewrite IH by (intros; apply H; lia). rewrite H, b2n_0 by lia. lia. Qed.

  (** DivUU32: what a satisfying assignment guarantees.  Missing: the remainder need not be smaller than the divisor, and the
      unconstrained first carry allows the sum to be one less than the dividend. *)
  Theorem div_uu_sound_partial lb m g t r t' : 0 < m -> has_order F g (2 ^ (2 * m) - 1) -> div_uu_new F basis lb m g t = (r, t') ->
    forall n w, satisfies F basis n w t' ->
    bitcols n m w (d_p_bits r) /\ bitcols n m w (d_q_bits r) /\ bitcols n m w (d_div_bits r) /\ bitcols n m w (d_rem_bits r) /\
    forall i, i < n -> num m w (d_q_bits r) i <> 0 /\
      exists c0, c0 <= 1 /\ num m w (d_q_bits r) i * num m w (d_div_bits r) i + num m w (d_rem_bits r) i + c0 = num m w (d_p_bits r) i.
  Proof.
    intros Hm HG E n w SW.
    assert (EN : ens F basis n (div_uu_new F basis lb m g) (fun w r => 
       bitcols n m w (d_p_bits r) /\ bitcols n m w (d_q_bits r) /\ bitcols n m w (d_div_bits r) /\ bitcols n m w (d_rem_bits r) /\
       forall i, i < n -> num m w (d_q_bits r) i <> 0 /\
       exists c0, c0 <= 1 /\ num m w (d_q_bits r) i * num m w (d_div_bits r) i + num m w (d_rem_bits r) i + c0 = num m w (d_p_bits r) i)); [|apply (EN _ _ _ E w SW)].
    clear t r t' E w SW. unfold div_uu_new.
    eapply ens_conseq.
    - eapply ens_bind; [apply ens_col|intros zero]. eapply ens_bind; [apply ens_bits|intros pb]. eapply ens_bind; [apply ens_bits|intros qb].
      eapply ens_bind; [eapply ens_true, (ens_computed F C2)|intros pin]. eapply ens_bind; [apply (ens_computed F C2)|intros qin].
      eapply ens_bind; [apply ens_bits|intros db]. eapply ens_bind; [apply ens_bits|intros rb].
      eapply ens_bind; [eapply ens_true, (ens_computed F C2)|intros dp]. eapply ens_bind; [eapply ens_true, (ens_computed F C2)|intros rp].
      eapply ens_bind; [apply (mul_sound_ens n m g qb db Hm HG)|intros mi]. eapply ens_bind; [apply ens_nonzero|intros u1].
      eapply ens_bind; [apply (wide_add_sound_ens n lb (2 * m)); [lia|reflexivity]|intros sm].
      eapply ens_bind; [apply (ens_from_fn F basis n tt); intros j Hj; apply ens_zero|intros u2].
      eapply ens_bind; [eapply ens_true, (wide_sub_ens F C2); lia|intros sb]. eapply ens_bind; [eapply ens_true, ens_zero|intros u3].
      match goal with |- ens _ _ _ (bret F ?v) _ => apply (ens_ret F basis n v (fun _ b => b = v)); reflexivity end.
    - intros w r HW. cbn zeta in HW. destruct HW as (zero & X0 & pb & [LP BP] & qb & [LQ BQ] & pin & _ & qin & XQ & db & [LD BD] & rb & [LR BR] & dp & _ & rp & _ & mi & XM & u1 & XN & sm & XS & u2 & [_ XE] & sb & _ & u3 & _ & ->).
      cbn [d_p_bits d_q_bits d_div_bits d_rem_bits]. split; [exact BP|]. split; [exact BQ|]. split; [exact BD|]. split; [exact BR|].
      destruct (XM LQ LD BQ BD) as (BL & BH & HM).
      set (prod := map (fun i => if i <? m then nthc (m_low_bits mi) i else nthc (m_high_bits mi) (i - m)) (seq 0 (2 * m))) in *.
      set (ze := fun l => map (fun i => if i <? m then nthc l i else zero) (seq 0 (2 * m))) in *.
      assert (Hz : forall i, i < n -> w zero i = f0) by (intros i Hi; specialize (X0 i); cbn [col_ok length] in X0; rewrite X0 by lia; now rewrite Nat.mod_1_r).
      assert (EP : forall j, j < 2 * m -> nthc prod j = if j <? m then nthc (m_low_bits mi) j else nthc (m_high_bits mi) (j - m)) by (intros j Hj; unfold prod; now rewrite nthc_map).
      assert (EZ : forall l j, j < 2 * m -> nthc (ze l) j = if j <? m then nthc l j else zero) by (intros l j Hj; unfold ze; now rewrite nthc_map).
      assert (BPR : bitcols n (2 * m) w prod) by (intros j Hj i Hi; rewrite EP by auto; destruct (Nat.ltb_spec j m); [apply BL; auto|apply BH; auto; lia]).
      assert (BZE : bitcols n (2 * m) w (ze rb)) by (intros j Hj i Hi; rewrite EZ by auto; destruct (Nat.ltb_spec j m); [apply BR; auto|rewrite Hz by auto; now left]).
      assert (NZE : forall l i, i < n -> num (2 * m) w (ze l) i = num m w l i).
      { intros l i Hi. unfold WideProps.num. replace (2 * m) with (m + m) by lia. rewrite bnum_app. rewrite (bnum_zero m (fun j => w (nthc (ze l) (m + j)) i)) by (intros j Hj; rewrite EZ by lia; destruct (Nat.ltb_spec (m + j) m); [lia|auto]).
        rewrite (bnum_ext F _ (fun j => w (nthc l j) i) m); [lia|]. intros j Hj. rewrite EZ by lia. destruct (Nat.ltb_spec j m); [reflexivity|lia]. }
      assert (NPR : forall i, i < n -> num (2 * m) w prod i = num m w (m_low_bits mi) i + 2 ^ m * num m w (m_high_bits mi) i).
      { intros i Hi. unfold WideProps.num. replace (2 * m) with (m + m) by lia. rewrite bnum_app. f_equal; [|f_equal].
        - apply bnum_ext. intros j Hj. rewrite EP by lia. destruct (Nat.ltb_spec j m); [reflexivity|lia].
        - apply bnum_ext. intros j Hj. rewrite EP by lia. destruct (Nat.ltb_spec (m + j) m); [lia|]. do 2 f_equal. lia. }
      destruct (XS BPR BZE) as [BS HS]. intros i Hi. split.
      + intros ZQ. apply (XN i); [cbn [fst]; lia|]. cbn [snd]. rewrite XQ by lia. rewrite pack_eval. unfold packed. apply sumn_zero. intros j Hj. rewrite LQ in Hj.
        assert (w (nthc qb j) i = f0) as ->; [|ring]. rewrite (bits_of_num (fun j => w (nthc qb j) i) m 0); auto. unfold AddProps.tb. now rewrite Nat.bits_0.
      + destruct (HS i Hi) as (c0 & C1 & C3). exists c0. split; [exact C1|]. change (num (2 * m) w prod i + num (2 * m) w (ze rb) i + c0 = num (2 * m) w (wa_zout sm) i + 2 ^ (2 * m) * b2n (w (wa_final_carry sm) i)) in C3. rewrite NPR, NZE, <- HM in C3 by auto.
        assert (EZO : num (2 * m) w (wa_zout sm) i = num m w pb i).
        { rewrite <- (NZE pb i Hi). unfold WideProps.num. apply bnum_ext. intros j Hj. specialize (XE j Hj i). cbn [fst snd eeval GadgetModel.ECol' Nat.add] in XE. symmetry. apply (char2_add_eq0 F C2). apply XE. lia. }
        rewrite EZO in C3. assert (BB : num m w qb i < 2 ^ m) by apply bnum_bound. assert (BB2 : num m w db i < 2 ^ m) by apply bnum_bound. assert (BB3 : num m w rb i < 2 ^ m) by apply bnum_bound.
        assert (P2 : 2 ^ (2 * m) = 2 ^ m * 2 ^ m) by (rewrite <- Nat.pow_add_r; f_equal; lia).
        assert (2 <= 2 ^ m) by (change 2 with (2 ^ 1) at 1; apply Nat.pow_le_mono_r; lia).
        destruct (b2n (w (wa_final_carry sm) i)) as [|k]; [lia|]. exfalso. set (M := 2 ^ m) in *. rewrite P2 in C3. nia.
  Qed.

  (** *** Signed multiplication *)
  Definition neg (m a : nat) : bool := Nat.testbit a (m - 1).
  Lemma sel_F (b : bool) (u v : F) : (u + bF F b * (u + v))%F = if b then v else u.
  Proof. destruct b; unfold bF; [|ring]. transitivity ((u + u) + v)%F; [ring|]. rewrite (char2_double F C2). ring. Qed.

  Lemma mul_ss_can n m lb g x y (X Y : nat -> nat) (Z1 Z2 : nat -> nat -> F) : 0 < m -> (forall i, i < n -> X i < 2 ^ m /\ Y i < 2 ^ m) ->
    let hi i := X i * Y i / 2 ^ m in
    let nh j i := if neg m (X i) then Z1 j i else tb (hi i) j in
    (forall j i, isbit (Z1 j i)) -> (forall i, Z1 0 i = (tb (hi i) 0 + tb (Y i) 0)%F) ->
    (forall j i, isbit (Z2 j i)) -> (forall i, Z2 0 i = (nh 0%nat i + tb (X i) 0)%F) ->
    can F basis n (fun w => length x = m /\ length y = m /\ holdn n m w x X /\ holdn n m w y Y) (mul_ss_with_input F basis lb m g x y)
      (fun w r => holdn n m w (ms_low_bits r) (fun i => (X i * Y i) mod 2 ^ m) /\ hold n m w (ms_high_bits r) (fun j i => if neg m (Y i) then Z2 j i else nh j i)).
  Proof.
    intros Hm HB hi nh BZ1 Z10 BZ2 Z20. unfold mul_ss_with_input.
    assert (BN : forall j i, isbit (nh j i)) by (intros j i; unfold nh; destruct (neg m (X i)); auto using tb_isbit).
    eapply can_bind; [apply (can_computed F C2 basis n _ 1 false _ (fun i => packed m (tb (X i)))); [discriminate|]|intros xin].
    { intros w (LX & LY & HX & HY) i Hi. apply (holdn_packed n); auto. lia. }
    eapply can_bind; [apply (can_computed F C2 basis n _ 1 false _ (fun i => packed m (tb (Y i)))); [discriminate|]|intros yin].
    { intros w [(LX & LY & HX & HY) _] i Hi. apply (holdn_packed n); auto. lia. }
    eapply can_bind with (Q := fun w r => m_x_bits r = x /\ m_y_bits r = y /\ (length (m_low_bits r) = m /\ length (m_high_bits r) = m) /\ holdn n m w (m_low_bits r) (fun i => (X i * Y i) mod 2 ^ m) /\ holdn n m w (m_high_bits r) hi).
    { eapply can_conseq; [apply (mul_can n m g x y X Y Hm HB)| |intros w a _ H; exact H]. intros w HW. ands. auto. }
    intros mi.
    eapply can_bind with (Q := fun w s => hold n m w (ws_zout s) Z1).
    { set (bo := fun j i => (tb (hi i) (S j) + tb (Y i) (S j) + Z1 (S j) i)%F).
      eapply can_conseq; [apply (wide_sub_can F C2 basis n lb m (m_high_bits mi) y commit_z (fun j i => tb (hi i) j) (fun j i => tb (Y i) j) (fun _ => f0) bo)| |].
      - exact Hm.
      - intros; auto using tb_isbit.
      - intros; apply tb_isbit.
      - intros; now left.
      - intros; unfold bo; repeat apply (bit_add F C2); auto using tb_isbit.
      - intros w HW. ands. split; [assumption|]. split; [assumption|intros i; reflexivity].
      - intros w a _ (_ & H & _) j Hj i Hi. rewrite (H j Hj i Hi). destruct (Nat.eqb_spec j 0) as [->|N]; [rewrite Z10 by auto; ring|].
        unfold bo. replace (S (j - 1)) with j by lia. transitivity ((tb (hi i) j + tb (hi i) j) + (tb (Y i) j + tb (Y i) j) + Z1 j i)%F; [ring|]. rewrite !(char2_double F C2). ring. }
    intros ys. eapply can_bind; [apply (@can_from_fn F basis n col 0 _ (fun j w c => forall i, w c i = nh j i)); intros j Hj|intros nhc].
    { apply (can_computed F C2); [intros _ i; apply BN|]. intros w HW i Hi. ands. cbn [eeval GadgetModel.ECol'].
      match goal with H : holdn n m w (m_high_bits mi) hi, H' : hold n m w (ws_zout ys) Z1, H'' : holdn n m w x X |- _ => rewrite H, H', H'' by lia end.
      unfold AddProps.tb at 2. fold (bF F (Nat.testbit (X i) (m - 1))). rewrite sel_F. reflexivity. }
    eapply can_bind with (Q := fun w s => hold n m w (ws_zout s) Z2).
    { set (bo := fun j i => (nh (S j) i + tb (X i) (S j) + Z2 (S j) i)%F).
      eapply can_conseq; [apply (wide_sub_can F C2 basis n lb m nhc x commit_z nh (fun j i => tb (X i) j) (fun _ => f0) bo)| |].
      - exact Hm.
      - intros; auto using tb_isbit.
      - intros; apply tb_isbit.
      - intros; now left.
      - intros; unfold bo; repeat apply (bit_add F C2); auto using tb_isbit.
      - intros w [HW [LN HN]]. ands. split; [intros j Hj i Hi; exact (HN j Hj i)|]. split; [assumption|intros i; reflexivity].
      - intros w a _ (_ & H & _) j Hj i Hi. rewrite (H j Hj i Hi). destruct (Nat.eqb_spec j 0) as [->|N]; [rewrite Z20 by auto; ring|].
        unfold bo. replace (S (j - 1)) with j by lia. transitivity ((nh j i + nh j i) + (tb (X i) j + tb (X i) j) + Z2 j i)%F; [ring|]. rewrite !(char2_double F C2). ring. }
    intros xs. eapply can_bind; [apply (@can_from_fn F basis n col 0 _ (fun j w c => forall i, w c i = if neg m (Y i) then Z2 j i else nh j i)); intros j Hj|intros oh].
    { apply (can_computed F C2); [intros _ i; destruct (neg m (Y i)); [apply BZ2|apply BN]|]. intros w [[HW [LN HN]] HZ2] i Hi. ands. cbn [eeval GadgetModel.ECol']. assert (E1 : w (nthc nhc j) i = nh j i) by (exact (HN j ltac:(lia) i)).
      match goal with H' : hold n m w (ws_zout xs) Z2, H'' : holdn n m w y Y |- _ => rewrite E1, H', H'' by lia end.
      unfold AddProps.tb at 1. fold (bF F (Nat.testbit (Y i) (m - 1))). rewrite sel_F. reflexivity. }
    eapply can_bind; [apply (can_computed F C2 basis n _ 1 false _ (fun i => packed m (fun j => if neg m (Y i) then Z2 j i else nh j i))); [discriminate|]|intros ph].
    { intros w [HW [LO' HN]] i Hi. assert (LO : @length col oh = m) by exact LO'. rewrite pack_eval, LO. unfold packed. apply sumn_ext. intros j Hj. f_equal. exact (HN j Hj i). }
    eapply can_bind; [apply (can_computed F C2 basis n _ 1 false _ (fun i => packed m (tb ((X i * Y i) mod 2 ^ m)))); [discriminate|]|intros pl].
    { intros w HW i Hi. ands. assert (LO : length (m_low_bits mi) = m) by assumption. rewrite pack_eval, LO. unfold packed. apply sumn_ext. intros j Hj. f_equal. match goal with H : holdn n m w (m_low_bits mi) _ |- _ => apply H; lia end. }
    apply can_ret. intros w [[[HW [LO HN]] _] _]. ands. cbn [ms_low_bits ms_high_bits]. split; [assumption|]. intros j Hj i Hi. exact (HN j Hj i).
  Qed.

  (** The value of an [m]-bit number in two's complement. *)
  Definition sval (m a : nat) : Z := if neg m a then (Z.of_nat a - 2 ^ Z.of_nat m)%Z else Z.of_nat a.

  Lemma sub_mod_Z h y M : y < M -> (Z.of_nat ((h + M - y) mod M) mod Z.of_nat M = (Z.of_nat h - Z.of_nat y) mod Z.of_nat M)%Z.
  Proof.
    intros H. rewrite Nat2Z.inj_mod. rewrite Z.mod_mod by lia. rewrite Nat2Z.inj_sub, Nat2Z.inj_add by lia. replace (Z.of_nat h + Z.of_nat M - Z.of_nat y)%Z with (Z.of_nat h - Z.of_nat y + 1 * Z.of_nat M)%Z by lia. apply Z.mod_add. lia.
  Qed.
  Lemma odd_submod h y m : 0 < m -> y < 2 ^ m -> tb ((h + 2 ^ m - y) mod 2 ^ m) 0 = (tb h 0 + tb y 0)%F.
  Proof.
    intros Hm Hy. unfold AddProps.tb. rewrite Nat.mod_pow2_bits_low by auto. fold (bF F (Nat.testbit h 0)) (bF F (Nat.testbit y 0)) (bF F (Nat.testbit (h + 2 ^ m - y) 0)). rewrite (xor_F F C2). f_equal.
    rewrite !Nat.bit0_odd. rewrite Nat.odd_sub by lia. rewrite Nat.odd_add. destruct m as [|m']; [lia|]. rewrite Nat.pow_succ_r', Nat.odd_mul. cbn [Nat.odd Nat.even negb andb]. now rewrite xorb_false_r.
  Qed.

  (** The values the prover writes. *)
  Lemma mul_ss_honest n m lb g x y (X Y : nat -> nat) : 0 < m -> (forall i, X i < 2 ^ m /\ Y i < 2 ^ m) -> exists H, (forall i, H i < 2 ^ m) /\
    can F basis n (fun w => length x = m /\ length y = m /\ holdn n m w x X /\ holdn n m w y Y) (mul_ss_with_input F basis lb m g x y)
      (fun w r => holdn n m w (ms_low_bits r) (fun i => (X i * Y i) mod 2 ^ m) /\ holdn n m w (ms_high_bits r) H) /\
    forall i, (Z.of_nat ((X i * Y i) mod 2 ^ m + 2 ^ m * H i) mod 2 ^ Z.of_nat (2 * m) = (sval m (X i) * sval m (Y i)) mod 2 ^ Z.of_nat (2 * m))%Z.
  Proof.
    intros Hm HB.
    set (hi := fun i => X i * Y i / 2 ^ m). set (z1 := fun i => (hi i + 2 ^ m - Y i) mod 2 ^ m). set (nh := fun i => if neg m (X i) then z1 i else hi i).
    set (z2 := fun i => (nh i + 2 ^ m - X i) mod 2 ^ m). set (H := fun i => if neg m (Y i) then z2 i else nh i).
    assert (CAN := mul_ss_can n m lb g x y X Y (fun j i => tb (z1 i) j) (fun j i => tb (z2 i) j) Hm (fun i _ => HB i)). cbn zeta in CAN.
    specialize (CAN ltac:(intros; apply tb_isbit) ltac:(intros i; apply odd_submod; [auto|apply HB]) ltac:(intros; apply tb_isbit)
      ltac:(intros i; destruct (HB i) as [B1 B2]; unfold z2; rewrite odd_submod by auto; f_equal; unfold nh; destruct (neg m (X i)); reflexivity)).
    exists H. split; [|split].
    - intros i. destruct (HB i) as [B1 B2]. pose proof (Nat.pow_nonzero 2 m ltac:(lia)). assert (hi i < 2 ^ m) by (apply Nat.div_lt_upper_bound; nia). unfold H, nh, z2, z1. destruct (neg m (Y i)), (neg m (X i)); auto; apply Nat.mod_upper_bound; auto.
    - eapply can_post; [exact CAN|]. cbv beta. intros w r _ [K1 K2]. split; [exact K1|]. intros j Hj i Hi. rewrite (K2 j Hj i Hi). unfold H, nh. destruct (neg m (Y i)); [reflexivity|]. destruct (neg m (X i)); reflexivity.
    - intros i. destruct (HB i) as [B1 B2]. set (M := 2 ^ m) in *.
        assert (MZ : Z.of_nat M = (2 ^ Z.of_nat m)%Z) by (unfold M; rewrite Nat2Z.inj_pow; reflexivity).
        assert (M2 : (2 ^ Z.of_nat (2 * m) = Z.of_nat M * Z.of_nat M)%Z) by (rewrite MZ, <- Z.pow_add_r by lia; f_equal; lia).
        assert (M0 : (0 < Z.of_nat M)%Z) by lia.
        assert (EX : Z.of_nat (X i * Y i) = (Z.of_nat ((X i * Y i) mod M) + Z.of_nat M * Z.of_nat (hi i))%Z) by (unfold hi; fold M; rewrite <- Nat2Z.inj_mul, <- Nat2Z.inj_add; f_equal; pose proof (Nat.div_mod (X i * Y i) M); lia).
        assert (EQ : forall a b, (a mod Z.of_nat M = b mod Z.of_nat M)%Z -> exists k, (a = b + k * Z.of_nat M)%Z).
        { intros a b Eab. exists (a / Z.of_nat M - b / Z.of_nat M)%Z. pose proof (Z.div_mod a (Z.of_nat M)). pose proof (Z.div_mod b (Z.of_nat M)). nia. }
        destruct (EQ _ _ (sub_mod_Z (hi i) (Y i) M B2)) as [k1 E1]. fold (z1 i) in E1. destruct (EQ _ _ (sub_mod_Z (nh i) (X i) M B1)) as [k2 E2]. fold (z2 i) in E2.
        rewrite M2. rewrite Nat2Z.inj_add, Nat2Z.inj_mul. unfold sval. rewrite <- MZ. rewrite Nat2Z.inj_mul in EX.
        set (lo := Z.of_nat ((X i * Y i) mod M)) in *. set (MM := Z.of_nat M) in *. set (x' := Z.of_nat (X i)) in *. set (y' := Z.of_nat (Y i)) in *. set (h' := Z.of_nat (hi i)) in *.
        assert (FIN : forall a b k, (a = b + k * (MM * MM))%Z -> (a mod (MM * MM) = b mod (MM * MM))%Z) by (intros a b k ->; apply Z.mod_add; nia).
        unfold H. unfold nh in E2 |- *. destruct (neg m (X i)) eqn:NX, (neg m (Y i)) eqn:NY.
        * apply (FIN _ _ (k1 + k2 - 1)%Z). rewrite E2, E1. nia.
        * apply (FIN _ _ k1). rewrite E1. nia.
        * apply (FIN _ _ k2). rewrite E2. nia.
        * apply (FIN _ _ 0%Z). fold h'. nia.
  Qed.

  (** MulSS32: for all inputs there are satisfying values whose output is the signed product modulo 2^(2m). *)
  Theorem mul_ss_complete lb m g x y t r t' : 0 < m -> length x = m -> length y = m -> mul_ss_with_input F basis lb m g x y t = (r, t') ->
    forall n w X Y, (forall w', agree F (len t) w w' -> satisfies F basis n w' t) -> below t m x -> below t m y ->
    holdn n m w x X -> holdn n m w y Y -> (forall i, X i < 2 ^ m /\ Y i < 2 ^ m) ->
    exists w' H, agree F (len t) w w' /\ satisfies F basis n w' t' /\ holdn n m w' (ms_low_bits r) (fun i => (X i * Y i) mod 2 ^ m) /\ holdn n m w' (ms_high_bits r) H /\
      forall i, (Z.of_nat ((X i * Y i) mod 2 ^ m + 2 ^ m * H i) mod 2 ^ Z.of_nat (2 * m) = (sval m (X i) * sval m (Y i)) mod 2 ^ Z.of_nat (2 * m))%Z.
  Proof.
    intros Hm LX LY E n w X Y HS BX BY HX HY HB.
    destruct (mul_ss_honest n m lb g x y X Y Hm HB) as (H & _ & CAN & HH). destruct (can_run F basis n _ _ _ t r t' w CAN E) as (w' & A' & S' & K1 & K2).
    - intros w1 A1. split; [now apply HS|]. split; [exact LX|]. split; [exact LY|]. split; intros j Hj i Hi; [rewrite <- A1 by (apply BX; auto); now apply HX|rewrite <- A1 by (apply BY; auto); now apply HY].
    - exists w', H. auto.
  Qed.

  (** MulSS32 also accepts wrong products: when the first operand is negative and the second is not, every high half with the right
      lowest bit is accepted. *)
  Theorem mul_ss_refuted lb m g x y t r t' : 0 < m -> length x = m -> length y = m -> mul_ss_with_input F basis lb m g x y t = (r, t') ->
    forall n w X Y H, (forall w', agree F (len t) w w' -> satisfies F basis n w' t) -> below t m x -> below t m y ->
    holdn n m w x X -> holdn n m w y Y -> (forall i, X i < 2 ^ m /\ Y i < 2 ^ m) -> (forall i, neg m (X i) = true /\ neg m (Y i) = false) ->
    (forall i, Nat.odd (H i) = xorb (Nat.odd (X i * Y i / 2 ^ m)) (Nat.odd (Y i))) ->
    exists w', agree F (len t) w w' /\ satisfies F basis n w' t' /\ holdn n m w' (ms_low_bits r) (fun i => (X i * Y i) mod 2 ^ m) /\ holdn n m w' (ms_high_bits r) H.
  Proof.
    intros Hm LX LY E n w X Y H HS BX BY HX HY HB HN HO.
    set (hi := fun i => X i * Y i / 2 ^ m).
    assert (CAN := mul_ss_can n m lb g x y X Y (fun j i => tb (H i) j) (fun j i => if j =? 0 then (tb (H i) 0 + tb (X i) 0)%F else f0) Hm (fun i _ => HB i)). cbn zeta in CAN.
    destruct (can_run F basis n _ _ _ t r t' w (CAN ltac:(intros; apply tb_isbit)
      ltac:(intros i; unfold AddProps.tb; rewrite !Nat.bit0_odd, HO; fold (bF F (Nat.odd (X i * Y i / 2 ^ m))) (bF F (Nat.odd (Y i))); now rewrite (xor_F F C2))
      ltac:(intros j i; cbv beta; destruct (j =? 0); [apply (bit_add F C2); apply tb_isbit|now left])
      ltac:(intros i; destruct (HN i) as [-> _]; reflexivity)) E) as (w' & A' & S' & K1 & K2).
    - intros w1 A1. split; [now apply HS|]. split; [exact LX|]. split; [exact LY|]. split; intros j Hj i Hi; [rewrite <- A1 by (apply BX; auto); now apply HX|rewrite <- A1 by (apply BY; auto); now apply HY].
    - exists w'. split; [exact A'|]. split; [exact S'|]. split; [exact K1|]. intros j Hj i Hi. rewrite (K2 j Hj i Hi). destruct (HN i) as [-> ->]. reflexivity.
  Qed.
End Mul.
