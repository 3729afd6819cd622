(** C46, fourth part: the barrel shifter. *)
Require Import Coq.Arith.Arith Coq.Lists.List Coq.Bool.Bool Lia.
From Verif Require Import Base.Fld Base.Lists Base.Sums M3.TableModel M3.TableProofs M3.GadgetModel M3.BitLemmas M3.AddProps M3.WideProps M3.MulProps.
Import ListNotations.
Local Open Scope nat_scope.

(** Specification: shifting a [W]-bit word [x] by [a < W]. *)
Definition shift_word (variant : shift_variant) (W x a : nat) : nat :=
  match variant with
  | LogicalLeft => (x * 2 ^ a) mod 2 ^ W
  | LogicalRight => x / 2 ^ a
  | CircularLeft => (x * 2 ^ a) mod 2 ^ W + x / 2 ^ (W - a)
  end.

Section Barrel.
  Variable F : field.
  Hypothesis C2 : char2 F.
  Variable basis : nat -> F.
  Add Ring Fring : (f_ring F).
  Notation wit := (wit F).
  Notation b2n := (b2n F).
  Notation bnum := (bnum F).
  Notation isbit := (isbit F).
  Notation tb := (tb F).
  Notation word := (word F).
  Notation packed := (packed F basis).
  Notation len t := (length (t_cols F t)).

  (** Shifting the bits of one word. *)
  Definition sh (variant : shift_variant) (W off : nat) (f : nat -> F) (j : nat) : F :=
    match variant with
    | LogicalLeft => if j <? off then f0 else f (j - off)
    | LogicalRight => if j + off <? W then f (j + off) else f0
    | CircularLeft => f ((j + W - off) mod W)
    end.
  Lemma sh_value variant lb off (w : wit) c r j : j < 2 ^ lb -> shifted_value F (w c) lb off variant (r * 2 ^ lb + j) = sh variant (2 ^ lb) off (fun j => w c (r * 2 ^ lb + j)) j.
  Proof.
    intros Hj. unfold shifted_value, sh. rewrite idx_mod by auto. destruct variant.
    - f_equal. lia.
    - destruct (Nat.ltb_spec j off); [reflexivity|]. f_equal. lia.
    - destruct (j + off <? 2 ^ lb); [|reflexivity]. f_equal. lia.
  Qed.
  Lemma sh_ext variant W off f g j : j < W -> off <= W -> (forall j, j < W -> f j = g j) -> sh variant W off f j = sh variant W off g j.
  Proof.
    intros Hj Ho H. unfold sh. destruct variant.
    - apply H. apply Nat.mod_upper_bound. lia.
    - destruct (j <? off); [reflexivity|]. apply H. lia.
    - destruct (Nat.ltb_spec (j + off) W); [|reflexivity]. now apply H.
  Qed.
  Lemma sh_sh variant W a b f j : j < W -> a + b < W -> sh variant W b (sh variant W a f) j = sh variant W (a + b) f j.
  Proof.
    intros Hj HW. unfold sh. destruct variant.
    - f_equal. destruct (Nat.lt_ge_cases j b) as [L|L].
      + rewrite (Nat.mod_small (j + W - b)) by lia. destruct (Nat.lt_ge_cases (j + W - b) a) as [L2|L2]; [lia|].
        replace (j + W - b + W - a) with ((j + W - (a + b)) + 1 * W) by lia. now rewrite Nat.mod_add by lia.
      + replace (j + W - b) with ((j - b) + 1 * W) by lia. rewrite Nat.mod_add, (Nat.mod_small (j - b)) by lia. f_equal. lia.
    - destruct (Nat.ltb_spec j b); [destruct (Nat.ltb_spec j (a + b)); [reflexivity|lia]|]. destruct (Nat.ltb_spec (j - b) a), (Nat.ltb_spec j (a + b)); try lia; [reflexivity|]. f_equal. lia.
    - destruct (Nat.ltb_spec (j + b) W); [|destruct (Nat.ltb_spec (j + (a + b)) W); [lia|reflexivity]]. destruct (Nat.ltb_spec (j + b + a) W), (Nat.ltb_spec (j + (a + b)) W); try lia; [|reflexivity]. f_equal. lia.
  Qed.
  Lemma sh_0 variant W f j : j < W -> sh variant W 0 f j = f j.
  Proof.
    intros Hj. unfold sh. destruct variant.
    - f_equal. replace (j + W - 0) with (j + 1 * W) by lia. rewrite Nat.mod_add by lia. now apply Nat.mod_small.
    - cbn [Nat.ltb Nat.leb]. f_equal. lia.
    - rewrite Nat.add_0_r. destruct (Nat.ltb_spec j W); [reflexivity|lia].
  Qed.
  (** The bit-level shift is the shift of the number. *)
  Lemma tb_eq a b j k : Nat.testbit a j = Nat.testbit b k -> tb a j = tb b k. Proof. unfold AddProps.tb. now intros ->. Qed.
  Lemma sh_tb variant W x a j : x < 2 ^ W -> a < W -> j < W -> sh variant W a (tb x) j = tb (shift_word variant W x a) j.
  Proof.
    intros Hx Ha Hj. unfold sh, shift_word. destruct variant.
    - assert (E : (x * 2 ^ a) mod 2 ^ W + x / 2 ^ (W - a) = Nat.lor ((x * 2 ^ a) mod 2 ^ W) (x / 2 ^ (W - a))).
      { apply Nat.add_nocarry_lxor || idtac. rewrite Nat.add_nocarry_lxor; [rewrite Nat.lxor_lor; [reflexivity|]|]; apply Nat.bits_inj_0; intros k; rewrite Nat.land_spec.
        all: destruct (Nat.lt_ge_cases k a) as [L|L]; [rewrite Nat.mod_pow2_bits_low by lia; rewrite Nat.mul_pow2_bits_low by auto; reflexivity|].
        all: rewrite Nat.div_pow2_bits; rewrite (testbit_high x W (k + (W - a)) Hx) by lia; apply andb_false_r. }
      rewrite E. apply tb_eq. rewrite Nat.lor_spec, Nat.mod_pow2_bits_low, Nat.div_pow2_bits by auto. destruct (Nat.lt_ge_cases j a) as [L|L].
      + rewrite Nat.mul_pow2_bits_low by auto. cbn [orb]. f_equal. rewrite Nat.mod_small by lia. lia.
      + rewrite Nat.mul_pow2_bits_high by auto. rewrite (testbit_high x W (j + (W - a)) Hx) by lia. rewrite orb_false_r. f_equal. replace (j + W - a) with ((j - a) + 1 * W) by lia. rewrite Nat.mod_add by lia. apply Nat.mod_small. lia.
    - destruct (Nat.ltb_spec j a) as [L|L].
      + unfold AddProps.tb. rewrite Nat.mod_pow2_bits_low, Nat.mul_pow2_bits_low by auto. reflexivity.
      + apply tb_eq. now rewrite Nat.mod_pow2_bits_low, Nat.mul_pow2_bits_high by auto.
    - destruct (Nat.ltb_spec (j + a) W) as [L|L].
      + apply tb_eq. now rewrite Nat.div_pow2_bits.
      + unfold AddProps.tb. now rewrite Nat.div_pow2_bits, (testbit_high x W (j + a) Hx L).
  Qed.

  (** The stages of the shifter on one word. *)
  Fixpoint stages (variant : shift_variant) (W : nat) (bits : list F) (i : nat) (f : nat -> F) : nat -> F :=
    match bits with [] => f | b :: bits => stages variant W bits (S i) (fun j => if feqb b f0 then f j else sh variant W (2 ^ i) f j) end.
  Lemma stages_ext variant W bits : forall i f g, 2 ^ (i + length bits) <= 2 * W -> (forall j, j < W -> f j = g j) -> forall j, j < W -> stages variant W bits i f j = stages variant W bits i g j.
  Proof.
    induction bits as [|b bits IH]; intros i f g HW H j Hj; cbn [stages length] in *; [auto|]. apply IH; auto; [now rewrite Nat.add_succ_comm|].
    intros k Hk. destruct (feqb b f0); [auto|]. apply sh_ext; auto. assert (2 ^ S i <= 2 * W) by (eapply Nat.le_trans; [|exact HW]; apply Nat.pow_le_mono_r; lia). rewrite Nat.pow_succ_r' in H0. lia.
  Qed.
  Lemma stages_sh variant W bits : forall i f, 2 ^ (i + length bits) <= W -> forall j, j < W -> stages variant W bits i f j = sh variant W (lnum F bits * 2 ^ i) f j.
  Proof.
    induction bits as [|b bits IH]; intros i f HW j Hj; cbn [stages lnum length] in *; [now rewrite Nat.mul_0_l, sh_0|].
    rewrite IH by (auto; now rewrite Nat.add_succ_comm).
    assert (LB : forall l : list F, lnum F l < 2 ^ length l) by (induction l as [|c l IHl]; cbn [lnum length]; [cbn; lia|]; pose proof (b2n_le F c); rewrite Nat.pow_succ_r'; lia).
    specialize (LB bits). assert (HS : 2 ^ (i + S (length bits)) = 2 * (2 ^ i * 2 ^ length bits)) by (rewrite Nat.add_succ_r, Nat.pow_succ_r', Nat.pow_add_r; lia).
    assert (P0 : 2 ^ i <> 0) by (apply Nat.pow_nonzero; lia).
    unfold AddProps.b2n at 1. destruct (feqb b f0).
    - rewrite (sh_ext variant W _ _ f) by (auto; rewrite Nat.pow_succ_r'; nia). f_equal. rewrite Nat.pow_succ_r'. lia.
    - rewrite (sh_ext variant W _ _ (sh variant W (2 ^ i) f)) by (auto; rewrite Nat.pow_succ_r'; nia). rewrite sh_sh by (auto; rewrite Nat.pow_succ_r'; nia). f_equal. rewrite Nat.pow_succ_r'. lia.
  Qed.

  Lemma pack_inj lb f g : basis_indep F basis (2 ^ lb) -> (forall j, j < 2 ^ lb -> isbit (f j) /\ isbit (g j)) -> (packed (2 ^ lb) f + packed (2 ^ lb) g = f0)%F -> forall j, j < 2 ^ lb -> f j = g j.
  Proof.
    intros HI HB E j Hj. set (h := fun j => if j <? 2 ^ lb then (f j + g j)%F else f0 : F).
    assert (Z : h j = f0).
    { apply (HI h); [|rewrite <- E; unfold MulProps.packed; rewrite <- sumn_add; apply sumn_ext; intros k Hk; unfold h; destruct (Nat.ltb_spec k (2 ^ lb)); [ring|lia]|exact Hj].
      intros k. unfold h. destruct (Nat.ltb_spec k (2 ^ lb)) as [L|L]; [|now left]. destruct (HB k L). now apply bit_add. }
    unfold h in Z. destruct (Nat.ltb_spec j (2 ^ lb)); [|lia]. now apply (char2_add_eq0 F C2).
  Qed.
  Lemma sh_bit variant W off f j : j < W -> off <= W -> (forall k, k < W -> isbit (f k)) -> isbit (sh variant W off f j).
  Proof.
    intros Hj Ho H. unfold sh. destruct variant.
    - apply H. apply Nat.mod_upper_bound. lia.
    - destruct (j <? off); [now left|]. apply H. lia.
    - destruct (Nat.ltb_spec (j + off) W); [now apply H|now left].
  Qed.

  Lemma loop_ens n lb variant bits : forall partial i cur, length partial = length bits -> i + length bits <= lb -> basis_indep F basis (2 ^ lb) ->
    ens F basis n (barrel_loop F lb (2 ^ lb) variant partial bits i cur) (fun w r => forall k, k < n ->
      (forall j, j < 2 ^ lb -> isbit (w cur (k * 2 ^ lb + j))) -> (forall c, In c partial -> forall j, j < 2 ^ lb -> isbit (w c (k * 2 ^ lb + j))) -> (forall c, In c bits -> isbit (w c k)) ->
      forall j, j < 2 ^ lb -> w (snd r) (k * 2 ^ lb + j) = stages variant (2 ^ lb) (map (fun c => w c k) bits) i (fun j => w cur (k * 2 ^ lb + j)) j /\ isbit (w (snd r) (k * 2 ^ lb + j))).
  Proof.
    induction bits as [|b bits IH]; intros [|p partial] i cur L HL HI; try discriminate; cbn [barrel_loop].
    - apply ens_ret. intros w k Hk Hc _ _ j Hj. cbn [snd map stages]. auto.
    - cbn [length] in L, HL. injection L as L.
      assert (D1 : 2 ^ lb / 2 ^ lb = 1) by (apply Nat.div_same, Nat.pow_nonzero; lia). rewrite D1.
      eapply ens_conseq; [eapply ens_bind; [apply ens_col|intros s; eapply ens_bind; [apply ens_col|intros pp; eapply ens_bind; [apply ens_col|intros sp; eapply ens_bind; [apply ens_col|intros cp; eapply ens_bind; [apply ens_zero|intros u; eapply ens_bind; [apply (IH partial (S i) p); auto; lia|intros r; apply (ens_ret F basis n (s :: fst r, snd r) (fun _ b => b = (s :: fst r, snd r))); reflexivity]]]]]]|].
      intros w out (s & X1 & pp & X2 & sp & X3 & cp & X4 & u & X5 & r & X6 & ->) k Hk Hc Hp Hb j Hj. cbn [snd].
      assert (Pi : 2 ^ i < 2 ^ lb) by (apply Nat.pow_lt_mono_r; lia).
      assert (K1 : k < n * 1) by lia. specialize (X2 k K1). specialize (X3 k K1). specialize (X4 k K1). specialize (X5 k K1). cbn [fst snd eeval GadgetModel.ECol'] in X5.
      assert (ES : forall j, j < 2 ^ lb -> w s (k * 2 ^ lb + j) = sh variant (2 ^ lb) (2 ^ i) (fun j => w cur (k * 2 ^ lb + j)) j).
      { intros j' Hj'. rewrite (X1 (k * 2 ^ lb + j')) by nia. now apply sh_value. }
      rewrite X2, X3, X4 in X5.
      assert (EP : forall j, j < 2 ^ lb -> w p (k * 2 ^ lb + j) = if feqb (w b k) f0 then w cur (k * 2 ^ lb + j) else w s (k * 2 ^ lb + j)).
      { destruct (Hb b (or_introl eq_refl)) as [E|E]; rewrite E in X5 |- *.
        - rewrite feqb_refl. apply (pack_inj lb (fun j => w p (k * 2 ^ lb + j)) (fun j => w cur (k * 2 ^ lb + j)) HI).
          + intros j' Hj'. split; [apply Hp; [now left|auto]|auto].
          + etransitivity; [|exact X5]. unfold MulProps.packed. ring.
        - destruct (feqb_spec F (f1 : F) f0) as [E1|_]; [now destruct (f_10 F)|]. apply (pack_inj lb (fun j => w p (k * 2 ^ lb + j)) (fun j => w s (k * 2 ^ lb + j)) HI).
          + intros j' Hj'. split; [apply Hp; [now left|auto]|]. rewrite ES by auto. apply sh_bit; auto. lia.
          + etransitivity; [|exact X5]. unfold MulProps.packed. unfold char2 in C2. rewrite C2. ring. }
      assert (Bp : forall j, j < 2 ^ lb -> isbit (w p (k * 2 ^ lb + j))) by (intros; apply Hp; [now left|auto]).
      destruct (X6 k Hk Bp (fun c I => Hp c (or_intror I)) (fun c I => Hb c (or_intror I)) j Hj) as [Y1 Y2]. split; [|exact Y2]. rewrite Y1. cbn [map stages].
      apply stages_ext; [rewrite map_length; eapply Nat.le_trans; [apply (Nat.pow_le_mono_r 2 _ lb); lia|lia]| |exact Hj].
      intros j' Hj'. rewrite EP by auto. destruct (feqb (w b k) f0); [reflexivity|now apply ES].
  Qed.

  (** BarrelShifter: for any input bits and any bits of the shift amount, the output of row [k] is the input word shifted by the
      number in the low [lb] bits of the shift amount.  (The hypothesis on the basis holds for the tower field bases; see
      [MulProps.basis_indep].) *)
  Theorem barrel_sound lb log_amount input amount variant t g t' : basis_indep F basis (2 ^ lb) -> barrel_new F lb log_amount input amount variant t = (g, t') ->
    forall n w, satisfies F basis n w t' -> bits F n (2 ^ lb) w input -> (forall k i, k < n -> i < lb -> isbit (w amount (k * 2 ^ log_amount + i))) ->
    bits F n (2 ^ lb) w (b_output g) /\
    forall k, k < n -> word lb w (b_output g) k = shift_word variant (2 ^ lb) (word lb w input k) (bnum (fun i => w amount (k * 2 ^ log_amount + i)) lb).
  Proof.
    intros HI E n w S BI BA.
    assert (EN : ens F basis n (barrel_new F lb log_amount input amount variant) (fun w g => bits F n (2 ^ lb) w input -> (forall k i, k < n -> i < lb -> isbit (w amount (k * 2 ^ log_amount + i))) ->
      forall k, k < n -> forall j, j < 2 ^ lb -> w (b_output g) (k * 2 ^ lb + j) = sh variant (2 ^ lb) (bnum (fun i => w amount (k * 2 ^ log_amount + i)) lb) (fun j => w input (k * 2 ^ lb + j)) j /\ isbit (w (b_output g) (k * 2 ^ lb + j)))).
    { clear t g t' E w S BI BA. intros t g t' E w S. unfold barrel_new in E. unfold bbind in E at 1.
      destruct (from_fn F lb 0 (fun _ => add_committed F (2 ^ lb) true) t) as [partial t1] eqn:E1. unfold bbind in E at 1.
      destruct (from_fn F lb 0 (fun i => add_selected F amount i log_amount) t1) as [bits' t2] eqn:E2. unfold bbind in E at 1.
      destruct (barrel_loop F lb (2 ^ lb) variant partial bits' 0 input t2) as [r t3] eqn:E3. injection E as <- <-. cbn [b_output].
      pose proof (ens_from_fn F basis n 0 (fun _ => add_committed F (2 ^ lb) true) (fun _ w c => forall i, i < n * 2 ^ lb -> isbit (w c i)) lb 0 ltac:(intros; apply ens_committed)) as N1.
      pose proof (ens_from_fn F basis n 0 (fun i => add_selected F amount i log_amount) (fun i w c => forall k, k < n * 1 -> w c k = w amount (k * 2 ^ log_amount + i)) lb 0 ltac:(intros; apply (ens_col F basis n 1 (DSelected F amount i log_amount)))) as N2.
      assert (L1 : length partial = lb).
      { clear -E1. revert t partial t1 E1. generalize 0 at 1. generalize (2 ^ lb). intros v. induction lb as [|k IH]; intros s t l t1 E; cbn [from_fn] in E; [injection E as <- <-; reflexivity|].
        unfold bbind at 1 in E. destruct (add_committed F v true t) as [a ta]. unfold bbind at 1 in E. destruct (from_fn F k (Datatypes.S s) (fun _ => add_committed F v true) ta) as [l' tb] eqn:E'. injection E as <- <-. cbn [length]. f_equal. eapply IH; eauto. }
      assert (L2 : length bits' = lb).
      { clear -E2. revert t1 bits' t2 E2. generalize 0. generalize log_amount. intros la. induction lb as [|k IH]; intros s t l t1 E; cbn [from_fn] in E; [injection E as <- <-; reflexivity|].
        unfold bbind at 1 in E. destruct (add_selected F amount s la t) as [a ta]. unfold bbind at 1 in E. destruct (from_fn F k (Datatypes.S s) (fun i => add_selected F amount i la) ta) as [l' tb] eqn:E'. injection E as <- <-. cbn [length]. f_equal. eapply IH; eauto. }
      destruct (loop_ens n lb variant bits' partial 0 input ltac:(congruence) ltac:(rewrite L2; lia) HI t2 r t3 E3 w S) as [S2 H3].
      destruct (N2 _ _ _ E2 w S2) as [S1 [_ H2]]. destruct (N1 _ _ _ E1 w S1) as [S0 [_ H1]]. split; [exact S0|].
      intros BI BA k Hk j Hj.
      assert (EB : map (fun c => w c k) bits' = map (fun i => w amount (k * 2 ^ log_amount + i)) (seq 0 lb)).
      { apply (nth_ext _ _ f0 f0); [rewrite !map_length, seq_length; exact L2|]. rewrite map_length. intros i Hi. rewrite (nth_indep _ f0 (w 0 k)) by (rewrite map_length; exact Hi).
        rewrite (map_nth (fun c => w c k)). rewrite (nth_map_seq (fun i => w amount (k * 2 ^ log_amount + i)) lb i f0) by (rewrite <- L2; exact Hi). apply H2; [rewrite <- L2; exact Hi|lia]. }
      destruct (H3 k Hk) with (j := j) as [Y1 Y2]; auto.
      - intros j' Hj'. apply BI. nia.
      - intros c Hc j' Hj'. apply (In_nth _ _ 0) in Hc. destruct Hc as (q & Hq & <-). apply H1; [rewrite <- L1; exact Hq|nia].
      - intros c Hc. apply (In_nth _ _ 0) in Hc. destruct Hc as (q & Hq & <-). rewrite H2 by (try lia; rewrite <- L2; exact Hq). apply BA; auto. rewrite <- L2. exact Hq.
      - split; [|exact Y2]. rewrite Y1, EB. rewrite stages_sh by (auto; rewrite map_length, seq_length; cbn [Nat.add]; lia).
        f_equal. rewrite Nat.pow_0_r, Nat.mul_1_r. clear. generalize (fun i => w amount (k * 2 ^ log_amount + i)). clear.
        induction lb as [|m IH]; intros f; [reflexivity|]. rewrite bnum_S. cbn [seq map lnum]. rewrite <- seq_shift, map_map. rewrite <- (IH (fun j => f (S j))). reflexivity. }
    destruct (EN _ _ _ E w S) as [_ H]. split.
    - intros i Hi. rewrite <- (Nat.mul_1_l (2 ^ lb)) in Hi. destruct (split_idx lb n 1 i Hi) as (k & j & -> & Hk & Hj). apply (H BI BA k); [lia|exact Hj].
    - intros k Hk. unfold AddProps.word.
      assert (AB : bnum (fun i => w amount (k * 2 ^ log_amount + i)) lb < 2 ^ lb) by apply bnum_bound.
      set (a := bnum (fun i => w amount (k * 2 ^ log_amount + i)) lb) in *. set (x := bnum (fun j => w input (k * 2 ^ lb + j)) (2 ^ lb)).
      assert (Hx : x < 2 ^ 2 ^ lb) by apply bnum_bound.
      rewrite (bnum_ext F _ (tb (shift_word variant (2 ^ lb) x a)) (2 ^ lb)).
      + rewrite bnum_tb. apply Nat.mod_small. 
        destruct variant; unfold shift_word.
        * assert (Q0 : 2 ^ (2 ^ lb - a) <> 0) by (apply Nat.pow_nonzero; lia). assert (A0 : 2 ^ a <> 0) by (apply Nat.pow_nonzero; lia).
          assert (PW : 2 ^ 2 ^ lb = 2 ^ (2 ^ lb - a) * 2 ^ a) by (rewrite <- Nat.pow_add_r; f_equal; lia). rewrite PW, Nat.mul_mod_distr_r by auto.
          pose proof (Nat.mod_upper_bound x _ Q0). assert (x / 2 ^ (2 ^ lb - a) < 2 ^ a) by (apply Nat.div_lt_upper_bound; lia). nia.
        * apply Nat.mod_upper_bound, Nat.pow_nonzero. lia.
        * eapply Nat.le_lt_trans; [|exact Hx]. apply Nat.div_le_upper_bound; [apply Nat.pow_nonzero; lia|]. assert (2 ^ a <> 0) by (apply Nat.pow_nonzero; lia). nia.
      + intros j Hj. destruct (H BI BA k Hk j Hj) as [Y _]. fold a in Y. rewrite Y.
        rewrite <- sh_tb by auto. apply sh_ext; [exact Hj|lia|]. intros j' Hj'. apply (bits_of_num F (fun j => w input (k * 2 ^ lb + j)) (2 ^ lb) x); [intros q Hq; apply BI; nia|reflexivity|exact Hj'].
  Qed.

  Lemma shift_word_lt variant W x a : x < 2 ^ W -> a < W -> shift_word variant W x a < 2 ^ W.
  Proof.
    intros Hx Ha. assert (A0 : 2 ^ a <> 0) by (apply Nat.pow_nonzero; lia). destruct variant; unfold shift_word.
    - assert (Q0 : 2 ^ (W - a) <> 0) by (apply Nat.pow_nonzero; lia).
      assert (PW : 2 ^ W = 2 ^ (W - a) * 2 ^ a) by (rewrite <- Nat.pow_add_r; f_equal; lia). rewrite PW, Nat.mul_mod_distr_r by auto.
      pose proof (Nat.mod_upper_bound x _ Q0). assert (x / 2 ^ (W - a) < 2 ^ a) by (apply Nat.div_lt_upper_bound; lia). nia.
    - apply Nat.mod_upper_bound, Nat.pow_nonzero. lia.
    - eapply Nat.le_lt_trans; [|exact Hx]. apply Nat.div_le_upper_bound; nia.
  Qed.
  (** One more stage. *)
  Lemma shift_step variant W x A i j : x < 2 ^ W -> 2 ^ S i <= W -> j < W ->
    tb (shift_word variant W x (A mod 2 ^ S i)) j = if Nat.testbit A i then sh variant W (2 ^ i) (tb (shift_word variant W x (A mod 2 ^ i))) j else tb (shift_word variant W x (A mod 2 ^ i)) j.
  Proof.
    intros Hx HW Hj. assert (P0 : 2 ^ i <> 0) by (apply Nat.pow_nonzero; lia). pose proof (Nat.mod_upper_bound A _ P0) as B.
    assert (E : A mod 2 ^ S i = A mod 2 ^ i + 2 ^ i * (if Nat.testbit A i then 1 else 0)).
    { rewrite Nat.pow_succ_r', (Nat.mul_comm 2), Nat.mod_mul_r by lia. f_equal. f_equal. pose proof (Nat.testbit_spec' A i) as T. unfold Nat.b2n in T. now rewrite T. }
    rewrite Nat.pow_succ_r' in HW. rewrite E. destruct (Nat.testbit A i); [|now rewrite Nat.mul_0_r, Nat.add_0_r].
    rewrite Nat.mul_1_r, <- sh_tb by (auto; lia). rewrite <- sh_sh by (auto; lia). apply sh_ext; [exact Hj|lia|]. intros k Hk. apply sh_tb; auto. lia.
  Qed.

  Lemma loop_can n lb variant (X A : nat -> nat) bits : forall partial i cur, length partial = length bits -> i + length bits = lb -> (forall k, k < n -> X k < 2 ^ 2 ^ lb) ->
    let st i k := shift_word variant (2 ^ lb) (X k) (A k mod 2 ^ i) in
    can F basis n (fun w => (forall k, k < n -> forall j, j < 2 ^ lb -> w cur (k * 2 ^ lb + j) = tb (st i k) j) /\
        (forall q, q < length bits -> forall k, k < n -> forall j, j < 2 ^ lb -> w (nthc partial q) (k * 2 ^ lb + j) = tb (st (S (i + q)) k) j) /\
        (forall q, q < length bits -> forall k, k < n -> w (nthc bits q) k = tb (A k) (i + q)))
      (barrel_loop F lb (2 ^ lb) variant partial bits i cur)
      (fun w r => forall k, k < n -> forall j, j < 2 ^ lb -> w (snd r) (k * 2 ^ lb + j) = tb (st lb k) j).
  Proof.
    induction bits as [|b bits IH]; intros [|p partial] i cur L HL HX st; try discriminate; cbn [barrel_loop].
    - apply can_ret. intros w (Hc & _ & _) k Hk j Hj. cbn [snd length] in *. rewrite Hc by auto. replace (st lb k) with (st i k) by (f_equal; lia). reflexivity.
    - cbn [length] in L, HL. injection L as L.
      assert (D1 : 2 ^ lb / 2 ^ lb = 1) by (apply Nat.div_same, Nat.pow_nonzero; lia). rewrite D1.
      assert (IDX : forall c, c < n * 2 ^ lb -> exists k j, c = k * 2 ^ lb + j /\ k < n /\ j < 2 ^ lb).
      { intros c Hc. rewrite <- (Nat.mul_1_l (2 ^ lb)) in Hc. destruct (split_idx lb n 1 c Hc) as (k & j & -> & Hk & Hj). exists k, j. repeat split; auto. lia. }
      assert (HPi : 2 ^ S i <= 2 ^ lb) by (apply Nat.pow_le_mono_r; lia).
      set (sv := fun c => sh variant (2 ^ lb) (2 ^ i) (tb (st i (c / 2 ^ lb))) (c mod 2 ^ lb)).
      assert (SV : forall k j, j < 2 ^ lb -> sv (k * 2 ^ lb + j) = sh variant (2 ^ lb) (2 ^ i) (tb (st i k)) j).
      { intros k j Hj. unfold sv. rewrite idx_mod by auto. rewrite Nat.div_add_l, Nat.div_small, Nat.add_0_r by lia. reflexivity. }
      eapply can_bind; [apply (can_col F basis n _ (2 ^ lb) _ sv)|intros s].
      { intros w c (Hc & Hp & Hb) E x Hx. rewrite E. destruct (IDX x Hx) as (k & j & -> & Hk & Hj). rewrite SV by auto. rewrite sh_value by auto. apply sh_ext; [exact Hj|rewrite Nat.pow_succ_r' in HPi; lia|]. intros q Hq. symmetry. now apply Hc. }
      eapply can_bind; [apply (can_col F basis n _ 1 _ (fun k => packed (2 ^ lb) (tb (st (S i) k))))|intros pp].
      { intros w c [(Hc & Hp & Hb) _] E k Hk. rewrite E. apply sumn_ext. intros j Hj. specialize (Hp 0 ltac:(cbn [length]; lia) k ltac:(lia) j Hj). change (nthc (p :: partial) 0) with p in Hp. rewrite Hp, Nat.add_0_r. reflexivity. }
      eapply can_bind; [apply (can_col F basis n _ 1 _ (fun k => packed (2 ^ lb) (sh variant (2 ^ lb) (2 ^ i) (tb (st i k)))))|intros sp].
      { intros w c [[_ Hs] _] E k Hk. rewrite E. apply sumn_ext. intros j Hj. now rewrite Hs, SV. }
      eapply can_bind; [apply (can_col F basis n _ 1 _ (fun k => packed (2 ^ lb) (tb (st i k))))|intros cp].
      { intros w c [[[(Hc & Hp & Hb) _] _] _] E k Hk. rewrite E. apply sumn_ext. intros j Hj. rewrite Hc by (auto; lia). reflexivity. }
      eapply can_bind; [apply can_zero|intros u].
      { intros w [[[[(Hc & Hp & Hb) Hs] Hpp] Hsp] Hcp] k Hk. cbn [fst] in Hk. cbn [fst snd eeval GadgetModel.ECol']. rewrite Hpp, Hsp, Hcp. specialize (Hb 0 ltac:(cbn [length]; lia) k ltac:(lia)). change (nthc (b :: bits) 0) with b in Hb. rewrite Hb, Nat.add_0_r.
        assert (EP : packed (2 ^ lb) (tb (st (S i) k)) = if Nat.testbit (A k) i then packed (2 ^ lb) (sh variant (2 ^ lb) (2 ^ i) (tb (st i k))) else packed (2 ^ lb) (tb (st i k))).
        { destruct (Nat.testbit (A k) i) eqn:T; apply sumn_ext; intros j Hj; f_equal; unfold st; (rewrite shift_step; [|apply HX; lia|exact HPi|exact Hj]); now rewrite T. }
        rewrite EP. assert (TB : tb (A k) i = if Nat.testbit (A k) i then f1 else f0) by reflexivity. rewrite TB.
        generalize (packed (2 ^ lb) (sh variant (2 ^ lb) (2 ^ i) (tb (st i k)))), (packed (2 ^ lb) (tb (st i k))). intros P Q. destruct (Nat.testbit (A k) i).
        - replace (f1 + f1)%F with (f0 : F) by (symmetry; exact C2). transitivity (P + P)%F; [ring|apply (char2_double F C2)].
        - transitivity (Q + Q)%F; [ring|apply (char2_double F C2)]. }
      eapply can_bind; [|intros r; apply (can_ret F basis n _ (s :: fst r, snd r)); intros w [_ H]; exact H].
      cbn beta. eapply can_conseq; [apply (IH partial (S i) p L ltac:(lia) HX)| |].
      + intros w [[[[[(Hc & Hp & Hb) Hs] Hpp] Hsp] Hcp] _]. split; [|split].
        * intros k Hk j Hj. specialize (Hp 0 ltac:(cbn [length]; lia) k Hk j Hj). rewrite Nat.add_0_r in Hp. exact Hp.
        * intros q Hq k Hk j Hj. specialize (Hp (S q) ltac:(cbn [length]; lia) k Hk j Hj). rewrite Nat.add_succ_r in Hp. exact Hp.
        * intros q Hq k Hk. specialize (Hb (S q) ltac:(cbn [length]; lia) k Hk). rewrite Nat.add_succ_r in Hb. exact Hb.
      + intros w a _ H. exact H.
  Qed.

  Lemma loop_grow lb v variant partial : forall bits i cur t r t', barrel_loop F lb v variant partial bits i cur t = (r, t') -> len t <= len t'.
  Proof.
    induction partial as [|p partial IH]; intros [|b bits] i cur t r t' E; cbn [barrel_loop] in E; try (injection E as <- <-; lia).
    unfold bbind, add_shifted, add_packed, new_column, assert_zero in E. cbn [t_cols t_zero t_nonzero fst snd] in E.
    match type of E with context [barrel_loop ?a ?b0 ?c ?d ?e ?f ?g ?h ?x] => destruct (barrel_loop a b0 c d e f g h x) as [r2 t2] eqn:E2 end.
    injection E as <- <-. apply IH in E2. cbn [t_cols] in E2. rewrite !app_length in E2. lia.
  Qed.

  (** BarrelShifter: for all input words and shift amounts there are values for the new columns that satisfy the table, with the
      shifted words in the output. *)
  Theorem barrel_complete lb log_amount input amount variant t g t' : barrel_new F lb log_amount input amount variant t = (g, t') ->
    forall n w X A, (forall w', agree F (len t) w w' -> satisfies F basis n w' t) -> input < len t -> amount < len t ->
    (forall k, k < n -> X k < 2 ^ 2 ^ lb /\ A k < 2 ^ lb) ->
    holds F lb n 1 w input X -> (forall k i, k < n -> i < lb -> w amount (k * 2 ^ log_amount + i) = tb (A k) i) ->
    exists w', agree F (len t) w w' /\ satisfies F basis n w' t' /\ holds F lb n 1 w' (b_output g) (fun k => shift_word variant (2 ^ lb) (X k) (A k)).
  Proof.
    intros E n w X A HS Li La HB HI HA.
    set (st := fun i k => shift_word variant (2 ^ lb) (X k) (A k mod 2 ^ i)).
    assert (CAN : can F basis n (fun w => holds F lb n 1 w input X /\ forall k i, k < n -> i < lb -> w amount (k * 2 ^ log_amount + i) = tb (A k) i) (barrel_new F lb log_amount input amount variant)
      (fun w g => holds F lb n 1 w (b_output g) (fun k => shift_word variant (2 ^ lb) (X k) (A k)))).
    { unfold barrel_new.
      eapply can_bind; [apply (can_from_fn F basis n 0 (fun _ => add_committed F (2 ^ lb) true) (fun q w c => forall i, w c i = pcol F lb (st (S q)) i) lb 0); intros q Hq; apply can_committed; intros; apply tb_bit|intros partial].
      eapply can_bind; [apply (can_from_fn F basis n 0 (fun i => add_selected F amount i log_amount) (fun q w c => forall i, w c i = tb (A i) q) lb 0); intros q Hq; apply can_col|intros bits'].
      { intros w1 c [[_ H1] _] E1 k Hk. rewrite E1. symmetry. apply H1; lia. }
      intros t1 a t1' E1. unfold bbind in E1. destruct (barrel_loop F lb (2 ^ lb) variant partial bits' 0 input t1) as [r t2] eqn:EL. injection E1 as <- <-. cbn [b_output].
      destruct (Nat.eq_dec (length partial) lb) as [LP|LP]; [destruct (Nat.eq_dec (length bits') lb) as [LB|LB]|].
      - assert (LC := loop_can n lb variant X A bits' partial 0 input ltac:(congruence) ltac:(rewrite LB; lia) (fun k Hk => proj1 (HB k Hk))). cbn zeta in LC.
        destruct (LC t1 r t2 EL) as [LL K]. split; [exact LL|]. intros w1 H1. destruct (K w1) as (w2 & A2 & H2).
        + intros w' A'. destruct (H1 w' A') as [S1 [[(G1 & G2) (_ & P1)] (_ & P2)]]. split; [exact S1|]. split; [|split].
          * intros k Hk j Hj. rewrite (G1 k) by (auto; lia). rewrite Nat.pow_0_r, Nat.mod_1_r. rewrite <- sh_tb; [|apply HB; auto|apply Nat.neq_0_lt_0, Nat.pow_nonzero; lia|exact Hj]. symmetry. now apply sh_0.
          * intros q Hq k Hk j Hj. unfold nthc. rewrite P1 by (rewrite LB in Hq; exact Hq). rewrite pcol_at by auto. reflexivity.
          * intros q Hq k Hk. unfold nthc. rewrite P2 by (rewrite LB in Hq; exact Hq). reflexivity.
        + exists w2. split; [exact A2|]. intros w' A'. destruct (H2 w' A') as [S2 G]. split; [exact S2|]. intros k Hk j Hj. rewrite G by (auto; lia). f_equal. f_equal. apply Nat.mod_small. apply HB. lia.
      - split; [now apply loop_grow in EL|]. intros w1 H1. destruct (H1 w1 (agree_refl F _ w1)) as [_ [_ [L' _]]]. now destruct LB.
      - split; [now apply loop_grow in EL|]. intros w1 H1. destruct (H1 w1 (agree_refl F _ w1)) as [_ [[_ [L' _]] _]]. now destruct LP. }
    refine (can_run F basis n _ _ _ t g t' w CAN E _). intros w' A'. split; [now apply HS|]. split.
    - intros k Hk j Hj. rewrite <- A' by auto. now apply HI.
    - intros k i Hk Hi. rewrite <- A' by auto. now apply HA.
  Qed.
End Barrel.
