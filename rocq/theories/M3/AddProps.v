(** C46, first part: packed addition and subtraction (U32Add, U32AddStacked, U32Sub). *)
Require Import Coq.NArith.NArith Coq.Arith.Arith Coq.Lists.List Coq.Bool.Bool Lia.
From Verif Require Import Base.Fld Base.Lists Base.Sums M3.TableModel M3.TableProofs M3.GadgetModel M3.BitLemmas.
Import ListNotations.
Local Open Scope nat_scope.

(** *** Specification: the integers held by bit columns *)
Section Spec.
  Variable F : field.
  Definition isbit (x : F) : Prop := x = f0 \/ x = f1.
  Definition b2n (x : F) : nat := if feqb x f0 then 0 else 1.
  (** The number with bits [f 0, ..., f (k - 1)], least significant first. *)
  Fixpoint bnum (f : nat -> F) (k : nat) : nat := match k with 0 => 0 | S k => bnum f k + b2n (f k) * 2 ^ k end.
  (** The [k]-th word of [2^lb] bits of a packed column. *)
  Definition word (lb : nat) (w : wit F) (c : col) (k : nat) : nat := bnum (fun j => w c (k * 2 ^ lb + j)) (2 ^ lb).
End Spec.

Section Basics.
  Variable F : field.
  Hypothesis C2 : char2 F.
  Add Ring Fring : (f_ring F).
  Notation b2n := (b2n F).
  Notation bnum := (bnum F).
  Notation isbit := (isbit F).

  Lemma b2n_0 : b2n f0 = 0. Proof. unfold AddProps.b2n. now rewrite feqb_refl. Qed.
  Lemma b2n_1 : b2n f1 = 1. Proof. unfold AddProps.b2n. destruct (feqb_spec F f1 f0) as [E|]; [|reflexivity]. now destruct (f_10 F). Qed.
  Lemma b2n_le x : b2n x <= 1. Proof. unfold AddProps.b2n. destruct (feqb x f0); lia. Qed.
  Lemma b2n_inj x y : isbit x -> isbit y -> b2n x = b2n y -> x = y.
  Proof. intros [->| ->] [->| ->]; rewrite ?b2n_0, ?b2n_1; congruence. Qed.
  Lemma bnum_ext f g k : (forall j, j < k -> f j = g j) -> bnum f k = bnum g k.
  Proof. induction k as [|k IH]; intros H; cbn [AddProps.bnum]; [reflexivity|]. rewrite IH by (intros; apply H; lia). now rewrite H by lia. Qed.
  Lemma bnum_bound f k : bnum f k < 2 ^ k.
  Proof. induction k as [|k IH]; cbn [AddProps.bnum]; [cbn; lia|]. pose proof (b2n_le (f k)). rewrite Nat.pow_succ_r'. nia. Qed.
  Lemma bnum_inj f g k : (forall j, j < k -> isbit (f j)) -> (forall j, j < k -> isbit (g j)) -> bnum f k = bnum g k -> forall j, j < k -> f j = g j.
  Proof.
    induction k as [|k IH]; intros Hf Hg E j Hj; [lia|]. cbn [AddProps.bnum] in E. pose proof (bnum_bound f k). pose proof (bnum_bound g k). pose proof (b2n_le (f k)). pose proof (b2n_le (g k)).
    assert (b2n (f k) = b2n (g k)) by nia. destruct (Nat.eq_dec j k) as [->|N]; [apply b2n_inj; auto|]. apply IH; auto; try (intros; apply Hf + apply Hg; lia). nia. lia.
  Qed.
  Lemma c2_11 : (f1 + f1 = (f0 : F))%F. Proof. exact C2. Qed.

  (** Ripple carry: a full adder in every position adds the numbers. *)
  Lemma full_adder (x y c z c' : F) : isbit x -> isbit y -> isbit c -> ((x + c) * (y + c) + c = c')%F -> (x + y + c = z)%F -> b2n x + b2n y + b2n c = b2n z + 2 * b2n c' /\ isbit z /\ isbit c'.
  Proof.
    pose proof c2_11 as C.
    assert (C3 : (f1 + f1 + f1 = (f1 : F))%F) by (rewrite C; ring).
    intros [->| ->] [->| ->] [->| ->] <- <-; unfold AddProps.isbit;
    repeat match goal with |- context [(?a + ?b)%F] => first [progress (replace (f0 + f0)%F with (f0 : F) by ring) | progress (replace (f0 + f1)%F with (f1 : F) by ring) | progress (replace (f1 + f0)%F with (f1 : F) by ring) | progress rewrite C
      | progress (replace (f0 * f0)%F with (f0 : F) by ring) | progress (replace (f0 * f1)%F with (f0 : F) by ring) | progress (replace (f1 * f0)%F with (f0 : F) by ring) | progress (replace (f1 * f1)%F with (f1 : F) by ring) ] end;
    rewrite ?b2n_0, ?b2n_1; repeat split; auto.
  Qed.
  Lemma full_subtractor (x y c z c' : F) : isbit x -> isbit y -> isbit c -> ((c + (x + f1)) * (c + y) + c = c')%F -> (x + y + c = z)%F -> b2n x + 2 * b2n c' = b2n z + b2n y + b2n c /\ isbit z /\ isbit c'.
  Proof.
    pose proof c2_11 as C.
    intros [->| ->] [->| ->] [->| ->] <- <-; unfold AddProps.isbit;
    repeat match goal with |- context [(?a + ?b)%F] => first [progress (replace (f0 + f0)%F with (f0 : F) by ring) | progress (replace (f0 + f1)%F with (f1 : F) by ring) | progress (replace (f1 + f0)%F with (f1 : F) by ring) | progress rewrite C
      | progress (replace (f0 * f0)%F with (f0 : F) by ring) | progress (replace (f0 * f1)%F with (f0 : F) by ring) | progress (replace (f1 * f0)%F with (f0 : F) by ring) | progress (replace (f1 * f1)%F with (f1 : F) by ring) ] end;
    rewrite ?b2n_0, ?b2n_1; repeat split; auto.
  Qed.
  Lemma ripple x y c z k : (forall j, j < k -> b2n (x j) + b2n (y j) + b2n (c j) = b2n (z j) + 2 * b2n (c (S j))) ->
    bnum x k + bnum y k + b2n (c 0) = bnum z k + b2n (c k) * 2 ^ k.
  Proof.
    induction k as [|k IH]; intros H; cbn [AddProps.bnum]; [cbn; lia|]. specialize (IH (fun j Hj => H j (Nat.lt_lt_succ_r _ _ Hj))). specialize (H k (Nat.lt_succ_diag_r k)).
    rewrite Nat.pow_succ_r'. nia.
  Qed.
End Basics.

Section Packed.
  Variable F : field.
  Hypothesis C2 : char2 F.
  Variable basis : nat -> F.
  Add Ring Fring2 : (f_ring F).
  Notation wit := (wit F).
  Notation b2n := (b2n F).
  Notation word := (word F).
  Notation isbit := (isbit F).

  Definition bits (n v : nat) (w : wit) (c : col) : Prop := forall i, i < n * v -> isbit (w c i).
  (** The carry (or borrow) column: bits, zero except in the lowest position of each word ("must be zero in all bits except the 0th"). *)
  Definition carry_ok (lb n v : nat) (w : wit) (c : option col) : Prop :=
    match c with Some c => bits n v w c /\ forall i, i < n * v -> i mod 2 ^ lb <> 0 -> w c i = f0 | None => True end.
  Definition carry_at (lb : nat) (w : wit) (c : option col) (k : nat) : nat := match c with Some c => b2n (w c (k * 2 ^ lb)) | None => 0 end.

  Lemma idx lb n q k j : k < n * q -> j < 2 ^ lb -> k * 2 ^ lb + j < n * (q * 2 ^ lb).
  Proof. intros. rewrite Nat.mul_assoc. nia. Qed.
  Lemma idx_mod lb k j : j < 2 ^ lb -> (k * 2 ^ lb + j) mod 2 ^ lb = j.
  Proof. intros. rewrite Nat.add_comm, Nat.mod_add by lia. now apply Nat.mod_small. Qed.

  (** The carry-in of position [j] of word [k], as constrained by the shifted column and the optional carry column. *)
  Lemma carry_chain lb n q w cout shl cin carry :
    (forall i, i < n * (q * 2 ^ lb) -> w shl i = shifted_value F (w cout) lb 1 LogicalLeft i) ->
    match carry with Some c => forall i, i < n * (q * 2 ^ lb) -> w cin i = (w shl i + w c i)%F | None => cin = shl end ->
    carry_ok lb n (q * 2 ^ lb) w carry -> forall k, k < n * q -> forall j, j < 2 ^ lb ->
    w cin (k * 2 ^ lb + j) = match j with 0 => match carry with Some c => w c (k * 2 ^ lb) | None => f0 end | S j' => w cout (k * 2 ^ lb + j') end.
  Proof.
    intros HS HC CO k Hk j Hj. pose proof (idx lb n q k j Hk Hj) as HI.
    assert (ES : w shl (k * 2 ^ lb + j) = match j with 0 => f0 | S j' => w cout (k * 2 ^ lb + j') end).
    { rewrite HS by auto. unfold shifted_value. rewrite idx_mod by auto. destruct j as [|j']; cbn [Nat.ltb Nat.leb]; [reflexivity|]. f_equal. lia. }
    destruct carry as [c|].
    - rewrite HC, ES by auto. destruct CO as [_ CZ]. destruct j as [|j'].
      + rewrite Nat.add_0_r. ring.
      + rewrite (CZ _ HI) by (rewrite idx_mod by auto; discriminate). ring.
    - subst cin. rewrite ES. reflexivity.
  Qed.

  Lemma u32_add_ens n lb q x y flags : ens F basis n (u32_add_new F lb (q * 2 ^ lb) x y flags) (fun w g =>
      bits n (q * 2 ^ lb) w (a_cout g) /\
      (forall i, i < n * (q * 2 ^ lb) -> w (a_cout_shl g) i = shifted_value F (w (a_cout g)) lb 1 LogicalLeft i) /\
      match carry_in_bit flags with Some c => forall i, i < n * (q * 2 ^ lb) -> w (a_cin g) i = (w (a_cout_shl g) i + w c i)%F | None => a_cin g = a_cout_shl g end /\
      (expose_final_carry flags = true -> exists c, a_final_carry g = Some c /\ forall i, i < n * 1 -> w c i = w (a_cout g) (i * 2 ^ lb + (2 ^ lb - 1))) /\
      (forall i, i < n * (q * 2 ^ lb) -> ((w x i + w (a_cin g) i) * (w y i + w (a_cin g) i) + w (a_cin g) i + w (a_cout g) i)%F = f0) /\
      (forall i, i < n * (q * 2 ^ lb) -> w (a_zout g) i = (w x i + w y i + w (a_cin g) i)%F)).
  Proof.
    unfold u32_add_new. set (v := q * 2 ^ lb).
    eapply ens_conseq; [eapply ens_bind; [apply ens_committed|intros cout; eapply ens_bind; [apply ens_col|intros shl; eapply ens_bind]]|].
    - instantiate (1 := fun w cin => match carry_in_bit flags with Some c => forall i, i < n * v -> w cin i = (w shl i + w c i)%F | None => cin = shl end).
      destruct (carry_in_bit flags) as [c|]; [apply (ens_computed F C2 basis n v true (EAdd F (ECol F shl) (ECol F c)))|apply ens_ret; reflexivity].
    - intros cin. eapply ens_bind.
      + instantiate (1 := fun w fc => expose_final_carry flags = true -> exists c, fc = Some c /\ forall i, i < n * 1 -> w c i = w cout (i * 2 ^ lb + (2 ^ lb - 1))).
        destruct (expose_final_carry flags); [|apply ens_ret; discriminate].
        eapply ens_conseq; [eapply ens_bind; [apply ens_col|intros c; apply (ens_ret F basis n (Some c) (fun _ b => b = Some c)); reflexivity]|].
        intros w b (c & H & ->) EX. exists c. split; [reflexivity|]. exact H.
      + intros fc. eapply ens_bind; [apply ens_zero|]. intros u0. eapply ens_bind.
        * instantiate (1 := fun w z => forall i, i < n * v -> w z i = (w x i + w y i + w cin i)%F).
          destruct (add_commit_zout flags).
          -- eapply ens_conseq; [eapply ens_bind; [apply ens_committed|intros z; eapply ens_bind; [apply ens_zero|intros u1; apply (ens_ret F basis n z (fun _ b => b = z)); reflexivity]]|].
             intros w b (z & HZ0 & u & HZ & ->) i Hi. specialize (HZ i Hi). cbn [snd eeval] in HZ. symmetry. now apply (char2_add_eq0 F C2).
          -- apply (ens_computed F C2 basis n v true (EAdd F (EAdd F (ECol F x) (ECol F y)) (ECol F cin))).
        * intros z. apply (ens_ret F basis n (mkU32Add x y cin cout shl z fc) (fun _ b => b = mkU32Add x y cin cout shl z fc)). reflexivity.
    - intros w g (cout & H1 & shl & H2 & cin & H3 & fc & H4 & u & H5 & z & H6 & ->). cbn [a_cout a_cout_shl a_cin a_final_carry a_zout]. split; [exact H1|].
      split; [exact H2|]. split; [exact H3|]. split; [exact H4|]. split; [|exact H6]. intros i Hi. apply (H5 i Hi).
  Qed.

  (** U32Add and U32AddStacked: in every satisfying assignment the output words are the sums modulo 2^(2^lb), and the top carry
      bit (exposed as the final carry) is the overflow. *)
  Theorem u32_add_sound lb q x y flags t g t' : u32_add_new F lb (q * 2 ^ lb) x y flags t = (g, t') ->
    forall n w, satisfies F basis n w t' -> bits n (q * 2 ^ lb) w x -> bits n (q * 2 ^ lb) w y -> carry_ok lb n (q * 2 ^ lb) w (carry_in_bit flags) ->
    bits n (q * 2 ^ lb) w (a_zout g) /\
    forall k, k < n * q ->
      word lb w x k + word lb w y k + carry_at lb w (carry_in_bit flags) k =
        word lb w (a_zout g) k + 2 ^ 2 ^ lb * b2n (w (a_cout g) (k * 2 ^ lb + (2 ^ lb - 1))) /\
      (q = 1 -> expose_final_carry flags = true -> exists c, a_final_carry g = Some c /\ w c k = w (a_cout g) (k * 2 ^ lb + (2 ^ lb - 1))).
  Proof.
    intros E n w SW BX BY CO. destruct (u32_add_ens n lb q x y flags _ _ _ E w SW) as (_ & BC & HS & HC & HF & HK & HZ). set (v := q * 2 ^ lb) in *.
    assert (HP : 0 < 2 ^ lb) by (apply Nat.neq_0_lt_0, Nat.pow_nonzero; lia).
    pose proof (carry_chain lb n q w (a_cout g) (a_cout_shl g) (a_cin g) (carry_in_bit flags) HS HC CO) as CH.
    set (cs := fun k j => match j with 0 => match carry_in_bit flags with Some c => w c (k * 2 ^ lb) | None => f0 end | S j' => w (a_cout g) (k * 2 ^ lb + j') end).
    assert (CB : forall k, k < n * q -> forall j, j < 2 ^ lb -> isbit (cs k j)).
    { intros k Hk [|j] Hj; unfold cs; [|apply BC; apply idx; auto; lia]. destruct (carry_in_bit flags) as [c|]; [|now left]. destruct CO as [CO _]. apply CO.
      pose proof (idx lb n q k 0 Hk HP). rewrite Nat.add_0_r in H. exact H. }
    assert (FA : forall k, k < n * q -> forall j, j < 2 ^ lb -> let i := k * 2 ^ lb + j in
       (b2n (w x i) + b2n (w y i) + b2n (cs k j) = b2n (w (a_zout g) i) + 2 * b2n (cs k (S j)) /\ isbit (w (a_zout g) i))).
    { intros k Hk j Hj i. pose proof (idx lb n q k j Hk Hj) as HI. fold i v in HI. specialize (CH k Hk j Hj). fold i in CH.
      destruct (full_adder F C2 (w x i) (w y i) (cs k j) (w (a_zout g) i) (cs k (S j))) as (A1 & A2 & _); auto.
      - unfold cs at 4. cbn [cs]. apply (char2_add_eq0 F C2). rewrite <- (HK i HI). rewrite CH. unfold cs. reflexivity.
      - rewrite HZ by auto. rewrite CH. reflexivity. }
    assert (SPL : forall i, i < n * v -> exists k j, i = k * 2 ^ lb + j /\ k < n * q /\ j < 2 ^ lb).
    { intros i Hi. exists (i / 2 ^ lb), (i mod 2 ^ lb). pose proof (Nat.div_mod i (2 ^ lb) ltac:(lia)). split; [lia|]. split; [|apply Nat.mod_upper_bound; lia].
      apply Nat.div_lt_upper_bound; [lia|]. unfold v in Hi. nia. }
    split.
    - intros i Hi. destruct (SPL i Hi) as (k & j & -> & Hk & Hj). now apply (FA k Hk j Hj).
    - intros k Hk. split.
      + pose proof (ripple F (fun j => w x (k * 2 ^ lb + j)) (fun j => w y (k * 2 ^ lb + j)) (cs k) (fun j => w (a_zout g) (k * 2 ^ lb + j)) (2 ^ lb)) as R.
        unfold AddProps.word. assert (carry_at lb w (carry_in_bit flags) k = b2n (cs k 0)) as ->.
        { unfold cs, carry_at. destruct (carry_in_bit flags); [reflexivity|]. now rewrite b2n_0. }
        rewrite R by (intros j Hj; apply (FA k Hk j Hj)). f_equal. rewrite Nat.mul_comm. f_equal. f_equal. unfold cs. destruct (2 ^ lb) as [|m]; [lia|]. f_equal. lia.
      + intros -> EF. destruct (HF EF) as (c & -> & Hc). exists c. split; [reflexivity|]. apply Hc. lia.
  Qed.

  (** *** Completeness: the values written by populate satisfy the table *)
  (** Bit [j] of a number, as a field element. *)
  Definition tb (a j : nat) : F := if Nat.testbit a j then f1 else f0.
  (** The packed column holding the words [f 0, f 1, ...]. *)
  Definition pcol (lb : nat) (f : nat -> nat) (i : nat) : F := tb (f (i / 2 ^ lb)) (i mod 2 ^ lb).
  Lemma tb_bit a j : tb a j = f0 \/ tb a j = f1. Proof. unfold tb. destruct (Nat.testbit a j); auto. Qed.
  Lemma pcol_at lb f k j : j < 2 ^ lb -> pcol lb f (k * 2 ^ lb + j) = tb (f k) j.
  Proof. intros Hj. unfold pcol. rewrite idx_mod by auto. f_equal. f_equal. rewrite Nat.div_add_l by lia. rewrite Nat.div_small by lia. lia. Qed.
  Lemma split_idx lb n q i : i < n * (q * 2 ^ lb) -> exists k j, i = k * 2 ^ lb + j /\ k < n * q /\ j < 2 ^ lb.
  Proof.
    intros Hi. assert (HP : 0 < 2 ^ lb) by (apply Nat.neq_0_lt_0, Nat.pow_nonzero; lia). exists (i / 2 ^ lb), (i mod 2 ^ lb). pose proof (Nat.div_mod i (2 ^ lb) ltac:(lia)). split; [lia|]. split; [|apply Nat.mod_upper_bound; lia].
    apply Nat.div_lt_upper_bound; [lia|]. nia.
  Qed.
  Lemma shl_at lb f k j : j < 2 ^ lb -> shifted_value F (pcol lb f) lb 1 LogicalLeft (k * 2 ^ lb + j) = match j with 0 => f0 | S j' => tb (f k) j' end.
  Proof. intros Hj. unfold shifted_value. rewrite idx_mod by auto. destruct j as [|j']; cbn [Nat.ltb Nat.leb]; [reflexivity|]. rewrite <- (pcol_at lb f k j') by lia. f_equal. lia. Qed.
  Definition bF (b : bool) : F := if b then f1 else f0.
  Lemma xor_F a b : (bF a + bF b)%F = bF (xorb a b).
  Proof. assert (C : (f1 + f1 = (f0 : F))%F) by exact C2. destruct a, b; unfold bF; cbn [xorb]; rewrite ?C; try ring; reflexivity. Qed.
  Lemma and_F a b : (bF a * bF b)%F = bF (andb a b).
  Proof. destruct a, b; unfold bF; cbn [andb]; ring. Qed.
  Lemma maj_F a b c : ((bF a + bF c) * (bF b + bF c) + bF c)%F = bF (maj a b c).
  Proof. rewrite !xor_F, and_F, xor_F. destruct a, b, c; reflexivity. Qed.
  Lemma borrow_F z y c : ((bF c + (bF (xorb (xorb z y) c) + f1)) * (bF c + bF y) + bF c)%F = bF (maj z y c).
  Proof. change (f1 : F) with (bF true). rewrite !xor_F, and_F, xor_F. destruct z, y, c; reflexivity. Qed.

  (** Column [c] of [w] holds the words [X k]. *)
  Definition holds (lb n q : nat) (w : wit) (c : col) (X : nat -> nat) : Prop := forall k, k < n * q -> forall j, j < 2 ^ lb -> w c (k * 2 ^ lb + j) = tb (X k) j.

  Lemma can_post {A} n P (m : builder F A) Q (Q' : wit -> A -> Prop) : can F basis n P m Q -> (forall w a, P w -> Q w a -> Q' w a) -> can F basis n P m Q'.
  Proof. intros H H1. eapply can_conseq; eauto. Qed.

  Lemma u32_add_can n lb q x y flags X Y C :
    let W k := u32_add_populate (2 ^ lb) (X k) (Y k) (C k) in
    let z k := fst (fst (fst (W k))) in let ci k := snd (fst (fst (W k))) in let co k := snd (fst (W k)) in let cy k := snd (W k) in
    (forall k, k < n * q -> X k < 2 ^ 2 ^ lb /\ Y k < 2 ^ 2 ^ lb /\ C k <= 1) -> (carry_in_bit flags = None -> forall k, C k = 0) -> (expose_final_carry flags = true -> q = 1) ->
    can F basis n (fun w => holds lb n q w x X /\ holds lb n q w y Y /\ match carry_in_bit flags with Some c => holds lb n q w c C | None => True end)
      (u32_add_new F lb (q * 2 ^ lb) x y flags)
      (fun w g => holds lb n q w (a_zout g) z /\ holds lb n q w (a_cin g) ci /\ holds lb n q w (a_cout g) co /\
         match a_final_carry g with Some c => forall k, k < n * q -> w c k = bF (cy k) | None => True end).
  Proof.
    intros W z ci co cy HB HC HF. set (v := q * 2 ^ lb).
    assert (HP : 0 < 2 ^ lb) by (apply Nat.neq_0_lt_0, Nat.pow_nonzero; lia).
    assert (FACT : forall k, k < n * q -> Nat.testbit (co k) (2 ^ lb - 1) = cy k /\ forall j, j < 2 ^ lb ->
      Nat.testbit (ci k) j = match j with 0 => Nat.testbit (C k) 0 | S j' => Nat.testbit (co k) j' end /\
      Nat.testbit (z k) j = xorb (xorb (Nat.testbit (X k) j) (Nat.testbit (Y k) j)) (Nat.testbit (ci k) j) /\
      Nat.testbit (co k) j = maj (Nat.testbit (X k) j) (Nat.testbit (Y k) j) (Nat.testbit (ci k) j)).
    { intros k Hk. destruct (HB k Hk) as (B1 & B2 & B3). unfold z, ci, co, cy. destruct (W k) as [[[z' ci'] co'] cy'] eqn:EW. cbn [fst snd].
      destruct (add_populate_bits (2 ^ lb) (X k) (Y k) (C k) z' ci' co' cy' HP B1 B2 B3 EW) as (_ & _ & H1 & H2). auto. }
    assert (HB01 : forall k, k < n * q -> forall j, 0 < j -> Nat.testbit (C k) j = false).
    { intros k Hk j Hj. destruct (HB k Hk) as (_ & _ & B3). apply (testbit_high _ 1); cbn; lia. }
    unfold u32_add_new. fold v.
    eapply can_bind; [apply (can_committed F basis n _ v (pcol lb co)); intros; apply tb_bit|intros cout].
    eapply can_bind.
    { apply (can_col F basis n _ v _ (shifted_value F (pcol lb co) lb 1 LogicalLeft)). intros w c [_ HO] E i _. rewrite E. unfold shifted_value. now rewrite HO. }
    intros shl. eapply can_bind with (Q := fun w cin => holds lb n q w cin ci).
    { destruct (carry_in_bit flags) as [c|].
      - eapply can_post; [apply (can_computed F C2 basis n _ v true _ (pcol lb ci)); [intros; apply tb_bit|]|].
        + intros w [[(HX & HY & HCC) HO] HS] i Hi. destruct (split_idx lb n q i Hi) as (k & j & -> & Hk & Hj). cbn [eeval GadgetModel.ECol']. rewrite HS, shl_at, HCC, pcol_at by auto.
          destruct (FACT k Hk) as [_ FK]. destruct (FK j Hj) as (F1 & _). unfold tb at 3. rewrite F1. destruct j as [|j']; [unfold tb; ring|]. unfold tb at 2. rewrite HB01 by (auto; lia). unfold tb. ring.
        + intros w a _ E k Hk j Hj. rewrite E. now apply pcol_at.
      - apply can_ret. intros w [_ HS] k Hk j Hj. rewrite HS, shl_at by auto. destruct (FACT k Hk) as [_ FK]. destruct (FK j Hj) as (F1 & _). unfold tb. rewrite F1. destruct j as [|j']; [|reflexivity]. now rewrite HC. }
    intros cin. eapply can_bind with (Q := fun w fc => match fc with Some c => forall k, k < n * q -> w c k = bF (cy k) | None => True end).
    { destruct (expose_final_carry flags); [|apply can_ret; auto]. specialize (HF eq_refl). subst q.
      eapply can_bind; [apply (can_col F basis n _ 1 _ (fun i => bF (Nat.testbit (co i) (2 ^ lb - 1))))|].
      - intros w c [[[_ HO] HS] HI] E i Hi. rewrite E, HO. now rewrite pcol_at by lia.
      - intros c. apply can_ret. intros w [_ E] k Hk. rewrite E. destruct (FACT k Hk) as [FK _]. now rewrite FK. }
    intros fc. eapply can_bind.
    { apply can_zero. intros w [[[[(HX & HY & HCC) HO] HS] HI] HFC] i Hi. destruct (split_idx lb n q i Hi) as (k & j & -> & Hk & Hj). cbn [fst snd eeval GadgetModel.ECol']. rewrite HX, HY, HI, HO, pcol_at by auto.
      destruct (FACT k Hk) as [_ FK]. destruct (FK j Hj) as (_ & _ & F3). unfold tb. fold (bF (Nat.testbit (X k) j)) (bF (Nat.testbit (Y k) j)) (bF (Nat.testbit (ci k) j)) (bF (Nat.testbit (co k) j)).
      rewrite maj_F, F3, xor_F, xorb_nilpotent. reflexivity. }
    intros u. eapply can_bind with (Q := fun w zc => holds lb n q w zc z).
    { assert (HZ : forall w, (((((holds lb n q w x X /\ holds lb n q w y Y /\ match carry_in_bit flags with Some c => holds lb n q w c C | None => True end) /\ (forall i, w cout i = pcol lb co i)) /\
        (forall i, w shl i = shifted_value F (pcol lb co) lb 1 LogicalLeft i)) /\ holds lb n q w cin ci) /\ match fc with Some c => forall k, k < n * q -> w c k = bF (cy k) | None => True end) /\ True ->
        forall i, i < n * v -> (w x i + w y i + w cin i = pcol lb z i)%F).
      { intros w [[[[[(HX & HY & HCC) HO] HS] HI] HFC] _] i Hi. destruct (split_idx lb n q i Hi) as (k & j & -> & Hk & Hj). rewrite HX, HY, HI, pcol_at by auto.
        destruct (FACT k Hk) as [_ FK]. destruct (FK j Hj) as (_ & F2 & _). unfold tb. fold (bF (Nat.testbit (X k) j)) (bF (Nat.testbit (Y k) j)) (bF (Nat.testbit (ci k) j)) (bF (Nat.testbit (z k) j)). now rewrite !xor_F, F2. }
      destruct (add_commit_zout flags).
      - eapply can_bind; [apply (can_committed F basis n _ v (pcol lb z)); intros; apply tb_bit|intros zc].
        eapply can_bind; [apply can_zero|intros u'; apply can_ret; intros w [[_ E] _] k Hk j Hj; rewrite E; now apply pcol_at].
        intros w [HW E] i Hi. cbn [fst snd eeval GadgetModel.ECol'] in *. rewrite E, (HZ w HW i Hi). apply (char2_double F C2).
      - eapply can_post; [apply (can_computed F C2 basis n _ v true _ (pcol lb z)); [intros; apply tb_bit|]|].
        + intros w HW i Hi. cbn [eeval GadgetModel.ECol']. apply (HZ w HW i Hi).
        + intros w a _ E k Hk j Hj. rewrite E. now apply pcol_at. }
    intros zc. apply can_ret. intros w [[[[[[_ HO] HS] HI] HFC] _] HZ]. cbn [a_zout a_cin a_cout a_final_carry]. split; [exact HZ|]. split; [exact HI|]. split; [|exact HFC].
    intros k Hk j Hj. rewrite HO. now apply pcol_at.
  Qed.

  (** U32Add and U32AddStacked: for any input words, the values written by populate satisfy the table. *)
  Theorem u32_add_complete lb q x y flags t g t' : u32_add_new F lb (q * 2 ^ lb) x y flags t = (g, t') -> (expose_final_carry flags = true -> q = 1) ->
    forall n w X Y C, (forall w', agree F (length (t_cols F t)) w w' -> satisfies F basis n w' t) ->
    x < length (t_cols F t) -> y < length (t_cols F t) -> holds lb n q w x X -> holds lb n q w y Y ->
    match carry_in_bit flags with Some c => c < length (t_cols F t) /\ holds lb n q w c C | None => forall k, C k = 0 end ->
    (forall k, k < n * q -> X k < 2 ^ 2 ^ lb /\ Y k < 2 ^ 2 ^ lb /\ C k <= 1) ->
    exists w', agree F (length (t_cols F t)) w w' /\ satisfies F basis n w' t' /\
      forall k, k < n * q -> let '(z, ci, co, cy) := u32_add_populate (2 ^ lb) (X k) (Y k) (C k) in
        z = (X k + Y k + C k) mod 2 ^ 2 ^ lb /\ cy = (2 ^ 2 ^ lb <=? X k + Y k + C k) /\
        (forall j, j < 2 ^ lb -> w' (a_zout g) (k * 2 ^ lb + j) = tb z j /\ w' (a_cin g) (k * 2 ^ lb + j) = tb ci j /\ w' (a_cout g) (k * 2 ^ lb + j) = tb co j) /\
        match a_final_carry g with Some c => w' c k = bF cy | None => True end.
  Proof.
    intros E HQ n w X Y C HS Lx Ly HX HY HC HB.
    assert (HC0 : carry_in_bit flags = None -> forall k, C k = 0) by (intros E0; rewrite E0 in HC; exact HC).
    destruct (u32_add_can n lb q x y flags X Y C HB HC0 HQ t g t' E) as [_ K]. destruct (K w) as (w' & A' & H').
    - intros w1 A1. split; [now apply HS|]. split; [|split].
      + intros k Hk j Hj. rewrite <- A1 by auto. now apply HX.
      + intros k Hk j Hj. rewrite <- A1 by auto. now apply HY.
      + destruct (carry_in_bit flags) as [c|]; [|auto]. destruct HC as [Lc HC]. intros k Hk j Hj. rewrite <- A1 by auto. now apply HC.
    - exists w'. split; [exact A'|]. destruct (H' w' (agree_refl F _ w')) as (SW & HZ & HI & HO & HF). split; [exact SW|]. intros k Hk.
      specialize (HZ k Hk). specialize (HI k Hk). specialize (HO k Hk). destruct (HB k Hk) as (B1 & B2 & B3).
      destruct (u32_add_populate (2 ^ lb) (X k) (Y k) (C k)) as [[[z ci] co] cy] eqn:EP. cbn [fst snd] in HZ, HI, HO.
      destruct (add_populate_bits (2 ^ lb) (X k) (Y k) (C k) z ci co cy) as (P1 & P2 & _); auto; [apply Nat.neq_0_lt_0, Nat.pow_nonzero; lia|].
      split; [exact P1|]. split; [exact P2|]. split; [intros j Hj; rewrite HZ, HI, HO by auto; rewrite EP; auto|]. destruct (a_final_carry g) as [c|]; [|auto]. specialize (HF k Hk). rewrite EP in HF. exact HF.
  Qed.
  Lemma u32_sub_ens n lb q x y flags : ens F basis n (u32_sub_new F lb (q * 2 ^ lb) x y flags) (fun w g =>
      bits n (q * 2 ^ lb) w (s_bout g) /\
      (forall i, i < n * (q * 2 ^ lb) -> w (s_bout_shl g) i = shifted_value F (w (s_bout g)) lb 1 LogicalLeft i) /\
      match borrow_in_bit flags with Some c => forall i, i < n * (q * 2 ^ lb) -> w (s_bin g) i = (w (s_bout_shl g) i + w c i)%F | None => s_bin g = s_bout_shl g end /\
      (expose_final_borrow flags = true -> exists c, s_final_borrow g = Some c /\ forall i, i < n * 1 -> w c i = w (s_bout g) (i * 2 ^ lb + (2 ^ lb - 1))) /\
      (forall i, i < n * (q * 2 ^ lb) -> ((w (s_bin g) i + (w x i + f1)) * (w (s_bin g) i + w y i) + w (s_bin g) i + w (s_bout g) i)%F = f0) /\
      (forall i, i < n * (q * 2 ^ lb) -> w (s_zout g) i = (w x i + w y i + w (s_bin g) i)%F)).
  Proof.
    unfold u32_sub_new. set (v := q * 2 ^ lb).
    eapply ens_conseq; [eapply ens_bind; [apply ens_committed|intros cout; eapply ens_bind; [apply ens_col|intros shl; eapply ens_bind]]|].
    - instantiate (1 := fun w cin => match borrow_in_bit flags with Some c => forall i, i < n * v -> w cin i = (w shl i + w c i)%F | None => cin = shl end).
      destruct (borrow_in_bit flags) as [c|]; [apply (ens_computed F C2 basis n v true (EAdd F (ECol F shl) (ECol F c)))|apply ens_ret; reflexivity].
    - intros cin. eapply ens_bind.
      + instantiate (1 := fun w fc => expose_final_borrow flags = true -> exists c, fc = Some c /\ forall i, i < n * 1 -> w c i = w cout (i * 2 ^ lb + (2 ^ lb - 1))).
        destruct (expose_final_borrow flags); [|apply ens_ret; discriminate].
        eapply ens_conseq; [eapply ens_bind; [apply ens_col|intros c; apply (ens_ret F basis n (Some c) (fun _ b => b = Some c)); reflexivity]|].
        intros w b (c & H & ->) EX. exists c. split; [reflexivity|]. exact H.
      + intros fc. eapply ens_bind; [apply ens_zero|]. intros u0. eapply ens_bind.
        * instantiate (1 := fun w z => forall i, i < n * v -> w z i = (w x i + w y i + w cin i)%F).
          destruct (sub_commit_zout flags).
          -- eapply ens_conseq; [eapply ens_bind; [apply ens_committed|intros z; eapply ens_bind; [apply ens_zero|intros u1; apply (ens_ret F basis n z (fun _ b => b = z)); reflexivity]]|].
             intros w b (z & HZ0 & u & HZ & ->) i Hi. specialize (HZ i Hi). cbn [snd eeval] in HZ. symmetry. now apply (char2_add_eq0 F C2).
          -- apply (ens_computed F C2 basis n v true (EAdd F (EAdd F (ECol F x) (ECol F y)) (ECol F cin))).
        * intros z. apply (ens_ret F basis n (mkU32Sub x y cout shl cin z fc) (fun _ b => b = mkU32Sub x y cout shl cin z fc)). reflexivity.
    - intros w g (cout & H1 & shl & H2 & cin & H3 & fc & H4 & u & H5 & z & H6 & ->). cbn [s_bout s_bout_shl s_bin s_final_borrow s_zout]. split; [exact H1|].
      split; [exact H2|]. split; [exact H3|]. split; [exact H4|]. split; [|exact H6]. intros i Hi. apply (H5 i Hi).
  Qed.

  (** U32Sub: in every satisfying assignment the output words are the differences modulo 2^(2^lb), and the top
      borrow bit (exposed as the final borrow) is set exactly when the subtrahend is larger. *)
  Theorem u32_sub_sound lb q x y flags t g t' : u32_sub_new F lb (q * 2 ^ lb) x y flags t = (g, t') ->
    forall n w, satisfies F basis n w t' -> bits n (q * 2 ^ lb) w x -> bits n (q * 2 ^ lb) w y -> carry_ok lb n (q * 2 ^ lb) w (borrow_in_bit flags) ->
    bits n (q * 2 ^ lb) w (s_zout g) /\
    forall k, k < n * q ->
      word lb w x k + 2 ^ 2 ^ lb * b2n (w (s_bout g) (k * 2 ^ lb + (2 ^ lb - 1))) =
        word lb w (s_zout g) k + word lb w y k + carry_at lb w (borrow_in_bit flags) k /\
      (q = 1 -> expose_final_borrow flags = true -> exists c, s_final_borrow g = Some c /\ w c k = w (s_bout g) (k * 2 ^ lb + (2 ^ lb - 1))).
  Proof.
    intros E n w SW BX BY CO. destruct (u32_sub_ens n lb q x y flags _ _ _ E w SW) as (_ & BC & HS & HC & HF & HK & HZ). set (v := q * 2 ^ lb) in *.
    assert (HP : 0 < 2 ^ lb) by (apply Nat.neq_0_lt_0, Nat.pow_nonzero; lia).
    pose proof (carry_chain lb n q w (s_bout g) (s_bout_shl g) (s_bin g) (borrow_in_bit flags) HS HC CO) as CH.
    set (cs := fun k j => match j with 0 => match borrow_in_bit flags with Some c => w c (k * 2 ^ lb) | None => f0 end | S j' => w (s_bout g) (k * 2 ^ lb + j') end).
    assert (CB : forall k, k < n * q -> forall j, j < 2 ^ lb -> isbit (cs k j)).
    { intros k Hk [|j] Hj; unfold cs; [|apply BC; apply idx; auto; lia]. destruct (borrow_in_bit flags) as [c|]; [|now left]. destruct CO as [CO _]. apply CO.
      pose proof (idx lb n q k 0 Hk HP). rewrite Nat.add_0_r in H. exact H. }
    assert (FA : forall k, k < n * q -> forall j, j < 2 ^ lb -> let i := k * 2 ^ lb + j in
       (b2n (w (s_zout g) i) + b2n (w y i) + b2n (cs k j) = b2n (w x i) + 2 * b2n (cs k (S j)) /\ isbit (w (s_zout g) i))).
    { intros k Hk j Hj i. pose proof (idx lb n q k j Hk Hj) as HI. fold i v in HI. specialize (CH k Hk j Hj). fold i in CH.
      destruct (full_subtractor F C2 (w x i) (w y i) (cs k j) (w (s_zout g) i) (cs k (S j))) as (A1 & A2 & _); auto.
      - apply (char2_add_eq0 F C2). rewrite <- (HK i HI). rewrite CH. unfold cs. reflexivity.
      - rewrite HZ by auto. rewrite CH. reflexivity. }
    assert (SPL : forall i, i < n * v -> exists k j, i = k * 2 ^ lb + j /\ k < n * q /\ j < 2 ^ lb).
    { intros i Hi. exists (i / 2 ^ lb), (i mod 2 ^ lb). pose proof (Nat.div_mod i (2 ^ lb) ltac:(lia)). split; [lia|]. split; [|apply Nat.mod_upper_bound; lia].
      apply Nat.div_lt_upper_bound; [lia|]. unfold v in Hi. nia. }
    split.
    - intros i Hi. destruct (SPL i Hi) as (k & j & -> & Hk & Hj). now apply (FA k Hk j Hj).
    - intros k Hk. split.
      + pose proof (ripple F (fun j => w (s_zout g) (k * 2 ^ lb + j)) (fun j => w y (k * 2 ^ lb + j)) (cs k) (fun j => w x (k * 2 ^ lb + j)) (2 ^ lb)) as R.
        unfold AddProps.word. assert (carry_at lb w (borrow_in_bit flags) k = b2n (cs k 0)) as ->.
        { unfold cs, carry_at. destruct (borrow_in_bit flags); [reflexivity|]. now rewrite b2n_0. }
        rewrite R by (intros j Hj; apply (FA k Hk j Hj)). f_equal. rewrite Nat.mul_comm. f_equal. f_equal. unfold cs. destruct (2 ^ lb) as [|m]; [lia|]. f_equal. lia.
      + intros -> EF. destruct (HF EF) as (c & -> & Hc). exists c. split; [reflexivity|]. apply Hc. lia.
  Qed.

  Lemma u32_sub_can n lb q x y flags X Y C :
    let W k := u32_sub_populate (2 ^ lb) (X k) (Y k) (C k) in
    let z k := fst (fst (fst (W k))) in let ci k := snd (fst (fst (W k))) in let co k := snd (fst (W k)) in let cy k := snd (W k) in
    (forall k, k < n * q -> X k < 2 ^ 2 ^ lb /\ Y k < 2 ^ 2 ^ lb /\ C k <= 1) -> (borrow_in_bit flags = None -> forall k, C k = 0) -> (expose_final_borrow flags = true -> q = 1) ->
    can F basis n (fun w => holds lb n q w x X /\ holds lb n q w y Y /\ match borrow_in_bit flags with Some c => holds lb n q w c C | None => True end)
      (u32_sub_new F lb (q * 2 ^ lb) x y flags)
      (fun w g => holds lb n q w (s_zout g) z /\ holds lb n q w (s_bin g) ci /\ holds lb n q w (s_bout g) co /\
         match s_final_borrow g with Some c => forall k, k < n * q -> w c k = bF (cy k) | None => True end).
  Proof.
    intros W z ci co cy HB HC HF. set (v := q * 2 ^ lb).
    assert (HP : 0 < 2 ^ lb) by (apply Nat.neq_0_lt_0, Nat.pow_nonzero; lia).
    assert (FACT : forall k, k < n * q -> Nat.testbit (co k) (2 ^ lb - 1) = cy k /\ forall j, j < 2 ^ lb ->
      Nat.testbit (ci k) j = match j with 0 => Nat.testbit (C k) 0 | S j' => Nat.testbit (co k) j' end /\
      Nat.testbit (X k) j = xorb (xorb (Nat.testbit (z k) j) (Nat.testbit (Y k) j)) (Nat.testbit (ci k) j) /\
      Nat.testbit (co k) j = maj (Nat.testbit (z k) j) (Nat.testbit (Y k) j) (Nat.testbit (ci k) j)).
    { intros k Hk. destruct (HB k Hk) as (B1 & B2 & B3). unfold z, ci, co, cy. destruct (W k) as [[[z' ci'] co'] cy'] eqn:EW. cbn [fst snd].
      destruct (sub_populate_bits (2 ^ lb) (X k) (Y k) (C k) z' ci' co' cy' HP B1 B2 B3 EW) as (_ & _ & H1 & H2). auto. }
    assert (HB01 : forall k, k < n * q -> forall j, 0 < j -> Nat.testbit (C k) j = false).
    { intros k Hk j Hj. destruct (HB k Hk) as (_ & _ & B3). apply (testbit_high _ 1); cbn; lia. }
    unfold u32_sub_new. fold v.
    eapply can_bind; [apply (can_committed F basis n _ v (pcol lb co)); intros; apply tb_bit|intros cout].
    eapply can_bind.
    { apply (can_col F basis n _ v _ (shifted_value F (pcol lb co) lb 1 LogicalLeft)). intros w c [_ HO] E i _. rewrite E. unfold shifted_value. now rewrite HO. }
    intros shl. eapply can_bind with (Q := fun w cin => holds lb n q w cin ci).
    { destruct (borrow_in_bit flags) as [c|].
      - eapply can_post; [apply (can_computed F C2 basis n _ v true _ (pcol lb ci)); [intros; apply tb_bit|]|].
        + intros w [[(HX & HY & HCC) HO] HS] i Hi. destruct (split_idx lb n q i Hi) as (k & j & -> & Hk & Hj). cbn [eeval GadgetModel.ECol']. rewrite HS, shl_at, HCC, pcol_at by auto.
          destruct (FACT k Hk) as [_ FK]. destruct (FK j Hj) as (F1 & _). unfold tb at 3. rewrite F1. destruct j as [|j']; [unfold tb; ring|]. unfold tb at 2. rewrite HB01 by (auto; lia). unfold tb. ring.
        + intros w a _ E k Hk j Hj. rewrite E. now apply pcol_at.
      - apply can_ret. intros w [_ HS] k Hk j Hj. rewrite HS, shl_at by auto. destruct (FACT k Hk) as [_ FK]. destruct (FK j Hj) as (F1 & _). unfold tb. rewrite F1. destruct j as [|j']; [|reflexivity]. now rewrite HC. }
    intros cin. eapply can_bind with (Q := fun w fc => match fc with Some c => forall k, k < n * q -> w c k = bF (cy k) | None => True end).
    { destruct (expose_final_borrow flags); [|apply can_ret; auto]. specialize (HF eq_refl). subst q.
      eapply can_bind; [apply (can_col F basis n _ 1 _ (fun i => bF (Nat.testbit (co i) (2 ^ lb - 1))))|].
      - intros w c [[[_ HO] HS] HI] E i Hi. rewrite E, HO. now rewrite pcol_at by lia.
      - intros c. apply can_ret. intros w [_ E] k Hk. rewrite E. destruct (FACT k Hk) as [FK _]. now rewrite FK. }
    intros fc. eapply can_bind.
    { apply can_zero. intros w [[[[(HX & HY & HCC) HO] HS] HI] HFC] i Hi. destruct (split_idx lb n q i Hi) as (k & j & -> & Hk & Hj). cbn [fst snd eeval GadgetModel.ECol']. rewrite HX, HY, HI, HO, pcol_at by auto.
      destruct (FACT k Hk) as [_ FK]. destruct (FK j Hj) as (_ & F2 & F3). unfold tb. fold (bF (Nat.testbit (X k) j)) (bF (Nat.testbit (Y k) j)) (bF (Nat.testbit (ci k) j)) (bF (Nat.testbit (co k) j)).
      rewrite F2, borrow_F, F3, xor_F, xorb_nilpotent. reflexivity. }
    intros u. eapply can_bind with (Q := fun w zc => holds lb n q w zc z).
    { assert (HZ : forall w, (((((holds lb n q w x X /\ holds lb n q w y Y /\ match borrow_in_bit flags with Some c => holds lb n q w c C | None => True end) /\ (forall i, w cout i = pcol lb co i)) /\
        (forall i, w shl i = shifted_value F (pcol lb co) lb 1 LogicalLeft i)) /\ holds lb n q w cin ci) /\ match fc with Some c => forall k, k < n * q -> w c k = bF (cy k) | None => True end) /\ True ->
        forall i, i < n * v -> (w x i + w y i + w cin i = pcol lb z i)%F).
      { intros w [[[[[(HX & HY & HCC) HO] HS] HI] HFC] _] i Hi. destruct (split_idx lb n q i Hi) as (k & j & -> & Hk & Hj). rewrite HX, HY, HI, pcol_at by auto.
        destruct (FACT k Hk) as [_ FK]. destruct (FK j Hj) as (_ & F2 & _). unfold tb. fold (bF (Nat.testbit (X k) j)) (bF (Nat.testbit (Y k) j)) (bF (Nat.testbit (ci k) j)) (bF (Nat.testbit (z k) j)). rewrite !xor_F, F2. f_equal. destruct (Nat.testbit (z k) j), (Nat.testbit (Y k) j), (Nat.testbit (ci k) j); reflexivity. }
      destruct (sub_commit_zout flags).
      - eapply can_bind; [apply (can_committed F basis n _ v (pcol lb z)); intros; apply tb_bit|intros zc].
        eapply can_bind; [apply can_zero|intros u'; apply can_ret; intros w [[_ E] _] k Hk j Hj; rewrite E; now apply pcol_at].
        intros w [HW E] i Hi. cbn [fst snd eeval GadgetModel.ECol'] in *. rewrite E, (HZ w HW i Hi). apply (char2_double F C2).
      - eapply can_post; [apply (can_computed F C2 basis n _ v true _ (pcol lb z)); [intros; apply tb_bit|]|].
        + intros w HW i Hi. cbn [eeval GadgetModel.ECol']. apply (HZ w HW i Hi).
        + intros w a _ E k Hk j Hj. rewrite E. now apply pcol_at. }
    intros zc. apply can_ret. intros w [[[[[[_ HO] HS] HI] HFC] _] HZ]. cbn [s_zout s_bin s_bout s_final_borrow]. split; [exact HZ|]. split; [exact HI|]. split; [|exact HFC].
    intros k Hk j Hj. rewrite HO. now apply pcol_at.
  Qed.

  (** U32Sub: for any input words, the values written by populate satisfy the table. *)
  Theorem u32_sub_complete lb q x y flags t g t' : u32_sub_new F lb (q * 2 ^ lb) x y flags t = (g, t') -> (expose_final_borrow flags = true -> q = 1) ->
    forall n w X Y C, (forall w', agree F (length (t_cols F t)) w w' -> satisfies F basis n w' t) ->
    x < length (t_cols F t) -> y < length (t_cols F t) -> holds lb n q w x X -> holds lb n q w y Y ->
    match borrow_in_bit flags with Some c => c < length (t_cols F t) /\ holds lb n q w c C | None => forall k, C k = 0 end ->
    (forall k, k < n * q -> X k < 2 ^ 2 ^ lb /\ Y k < 2 ^ 2 ^ lb /\ C k <= 1) ->
    exists w', agree F (length (t_cols F t)) w w' /\ satisfies F basis n w' t' /\
      forall k, k < n * q -> let '(z, ci, co, cy) := u32_sub_populate (2 ^ lb) (X k) (Y k) (C k) in
        z < 2 ^ 2 ^ lb /\ z + Y k + C k = X k + (if cy then 2 ^ 2 ^ lb else 0) /\
        (forall j, j < 2 ^ lb -> w' (s_zout g) (k * 2 ^ lb + j) = tb z j /\ w' (s_bin g) (k * 2 ^ lb + j) = tb ci j /\ w' (s_bout g) (k * 2 ^ lb + j) = tb co j) /\
        match s_final_borrow g with Some c => w' c k = bF cy | None => True end.
  Proof.
    intros E HQ n w X Y C HS Lx Ly HX HY HC HB.
    assert (HC0 : borrow_in_bit flags = None -> forall k, C k = 0) by (intros E0; rewrite E0 in HC; exact HC).
    destruct (u32_sub_can n lb q x y flags X Y C HB HC0 HQ t g t' E) as [_ K]. destruct (K w) as (w' & A' & H').
    - intros w1 A1. split; [now apply HS|]. split; [|split].
      + intros k Hk j Hj. rewrite <- A1 by auto. now apply HX.
      + intros k Hk j Hj. rewrite <- A1 by auto. now apply HY.
      + destruct (borrow_in_bit flags) as [c|]; [|auto]. destruct HC as [Lc HC]. intros k Hk j Hj. rewrite <- A1 by auto. now apply HC.
    - exists w'. split; [exact A'|]. destruct (H' w' (agree_refl F _ w')) as (SW & HZ & HI & HO & HF). split; [exact SW|]. intros k Hk.
      specialize (HZ k Hk). specialize (HI k Hk). specialize (HO k Hk). destruct (HB k Hk) as (B1 & B2 & B3).
      destruct (u32_sub_populate (2 ^ lb) (X k) (Y k) (C k)) as [[[z ci] co] cy] eqn:EP. cbn [fst snd] in HZ, HI, HO.
      destruct (sub_populate_bits (2 ^ lb) (X k) (Y k) (C k) z ci co cy) as (P1 & P2 & _); auto; [apply Nat.neq_0_lt_0, Nat.pow_nonzero; lia|].
      split; [exact P1|]. split; [exact P2|]. split; [intros j Hj; rewrite HZ, HI, HO by auto; rewrite EP; auto|]. destruct (s_final_borrow g) as [c|]; [|auto]. specialize (HF k Hk). rewrite EP in HF. exact HF.
  Qed.
End Packed.
