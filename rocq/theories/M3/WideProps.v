(** C46, second part: addition, increment and subtraction over separate bit columns (WideAdd, Incr, WideSub). *)
Require Import Coq.NArith.NArith Coq.Arith.Arith Coq.Lists.List Coq.Bool.Bool Lia.
From Verif Require Import Base.Fld Base.Lists Base.Sums M3.TableModel M3.TableProofs M3.GadgetModel M3.BitLemmas M3.AddProps.
Import ListNotations.
Local Open Scope nat_scope.

Section Wide.
  Variable F : field.
  Hypothesis C2 : char2 F.
  Variable basis : nat -> F.
  Add Ring Fring : (f_ring F).
  Notation wit := (wit F).
  Notation b2n := (b2n F).
  Notation bnum := (bnum F).
  Notation isbit := (isbit F).
  Notation tb := (tb F).

  (** The first [m] columns of [l] hold bits in all [n] rows. *)
  Definition bitcols (n m : nat) (w : wit) (l : list col) : Prop := forall j, j < m -> forall i, i < n -> isbit (w (nthc l j) i).
  (** The [m]-bit number in row [i] of the bit columns [l]. *)
  Definition num (m : nat) (w : wit) (l : list col) (i : nat) : nat := bnum (fun j => w (nthc l j) i) m.

  Lemma mul1 n : n * 1 = n. Proof. apply Nat.mul_1_r. Qed.

  Lemma wide_add_ens n lb m x y flags : ens F basis n (wide_add_new F lb m x y flags) (fun w g =>
      (forall j, j < m -> forall i, i < n ->
         match j, carry_in_bit flags with 0, Some c => w (nthc (wa_cin g) 0) i = w c (i * 2 ^ lb) | _, _ => isbit (w (nthc (wa_cin g) j) i) end) /\
      (forall i, i < n -> isbit (w (wa_final_carry g) i)) /\
      (forall j, j < m -> forall i, i < n -> w (nthc (wa_zout g) j) i = (w (nthc x j) i + w (nthc y j) i + w (nthc (wa_cin g) j) i)%F) /\
      (forall j, j < m -> forall i, i < n -> ((w (nthc x j) i + w (nthc (wa_cin g) j) i) * (w (nthc y j) i + w (nthc (wa_cin g) j) i) + w (nthc (wa_cin g) j) i)%F =
         w (if j =? m - 1 then wa_final_carry g else nthc (wa_cin g) (j + 1)) i)).
  Proof.
    unfold wide_add_new.
    eapply ens_conseq; [eapply ens_bind; [apply (ens_from_fn F basis n 0 _ (fun j w c => forall i, i < n -> match j, carry_in_bit flags with 0, Some cc => w c i = w cc (i * 2 ^ lb) | _, _ => isbit (w c i) end))|]|].
    - intros j Hj. destruct j as [|j]; cbn [Nat.eqb].
      + destruct (carry_in_bit flags) as [c|].
        * eapply ens_conseq; [apply ens_col|]. intros w c' H i Hi. cbn in H. rewrite (H i) by lia. now rewrite Nat.add_0_r.
        * eapply ens_conseq; [apply ens_committed|]. intros w c' H i Hi. apply H. lia.
      + eapply ens_conseq; [apply ens_committed|]. intros w c' H i Hi. apply H. lia.
    - intros cin. eapply ens_bind.
      + instantiate (1 := fun w z => forall j, j < m -> forall i, i < n -> w (nthc z j) i = (w (nthc x j) i + w (nthc y j) i + w (nthc cin j) i)%F).
        destruct (add_commit_zout flags).
        * eapply ens_conseq; [eapply ens_bind; [apply (ens_from_fn F basis n 0 _ (fun _ _ _ => True)); intros; eapply ens_true, ens_committed|intros z; eapply ens_bind; [apply (ens_from_fn F basis n tt); intros j Hj; apply ens_zero|intros u; apply (ens_ret F basis n z (fun _ b => b = z)); reflexivity]]|].
          intros w b (z & Hz & u & (_ & HZ) & ->) j Hj i Hi. specialize (HZ j Hj i). cbn [fst snd eeval GadgetModel.ECol'] in HZ. symmetry. apply (char2_add_eq0 F C2). apply HZ. lia.
        * eapply ens_conseq; [apply (ens_from_fn F basis n 0); intros j Hj; apply (ens_computed F C2)|]. intros w z (_ & H) j Hj i Hi. specialize (H j Hj i). cbn [eeval GadgetModel.ECol'] in H. apply H. lia.
      + intros z. eapply ens_bind; [apply ens_committed|intros fc; eapply ens_bind; [apply (ens_from_fn F basis n tt); intros j Hj; apply ens_zero|]].
        intros u. apply (ens_ret F basis n (mkWideAdd x y cin z fc) (fun _ b => b = mkWideAdd x y cin z fc)). reflexivity.
    - intros w g (cin & (_ & H1) & z & H2 & fc & H3 & u & (_ & H4) & ->). cbn [wa_cin wa_zout wa_final_carry]. split; [|split; [|split; [exact H2|]]].
      + intros j Hj i Hi. specialize (H1 j Hj i Hi). cbn [Nat.add] in H1. destruct j; [destruct (carry_in_bit flags)|]; exact H1.
      + intros i Hi. apply H3. lia.
      + intros j Hj i Hi. specialize (H4 j Hj i). cbn [fst snd eeval GadgetModel.ECol' Nat.add] in H4. apply (char2_add_eq0 F C2). apply H4. lia.
  Qed.

  (** WideAdd: in every satisfying assignment the output is the sum of the inputs and the first carry, and the final carry is
      the overflow.  With a carry-in column the first carry is the first bit of the row in that column; without one it is only
      known to be a bit (see [wide_add_carry_refuted]). *)
  Theorem wide_add_sound lb m x y flags t g t' : 0 < m -> wide_add_new F lb m x y flags t = (g, t') ->
    forall n w, satisfies F basis n w t' -> bitcols n m w x -> bitcols n m w y ->
    match carry_in_bit flags with Some c => forall i, i < n -> isbit (w c (i * 2 ^ lb)) | None => True end ->
    bitcols n m w (wa_zout g) /\
    forall i, i < n -> exists c0, c0 <= 1 /\ num m w x i + num m w y i + c0 = num m w (wa_zout g) i + 2 ^ m * b2n (w (wa_final_carry g) i) /\
      match carry_in_bit flags with Some c => c0 = b2n (w c (i * 2 ^ lb)) | None => True end.
  Proof.
    intros Hm E n w SW BX BY BC. destruct (wide_add_ens n lb m x y flags _ _ _ E w SW) as (_ & H1 & H2 & H3 & H4).
    set (cs := fun i j => if j =? m then w (wa_final_carry g) i else w (nthc (wa_cin g) j) i).
    assert (CB : forall i, i < n -> forall j, j < m -> isbit (w (nthc (wa_cin g) j) i)).
    { intros i Hi j Hj. specialize (H1 j Hj i Hi). destruct j as [|j]; [|exact H1]. destruct (carry_in_bit flags); [|exact H1]. rewrite H1. auto. }
    assert (FA : forall i, i < n -> forall j, j < m -> b2n (w (nthc x j) i) + b2n (w (nthc y j) i) + b2n (cs i j) = b2n (w (nthc (wa_zout g) j) i) + 2 * b2n (cs i (S j)) /\ isbit (w (nthc (wa_zout g) j) i)).
    { intros i Hi j Hj. assert (E1 : cs i j = w (nthc (wa_cin g) j) i) by (unfold cs; destruct (Nat.eqb_spec j m); [lia|reflexivity]).
      assert (E2 : cs i (S j) = w (if j =? m - 1 then wa_final_carry g else nthc (wa_cin g) (j + 1)) i).
      { unfold cs. destruct (Nat.eqb_spec (S j) m), (Nat.eqb_spec j (m - 1)); try lia; [reflexivity|]. now rewrite Nat.add_1_r. }
      destruct (full_adder F C2 (w (nthc x j) i) (w (nthc y j) i) (cs i j) (w (nthc (wa_zout g) j) i) (cs i (S j))) as (A1 & A2 & _); auto.
      - rewrite E1. auto.
      - rewrite E1, E2. auto.
      - rewrite E1. symmetry. auto. }
    split; [intros j Hj i Hi; now apply FA|].
    intros i Hi. exists (b2n (cs i 0)). split; [apply b2n_le|]. split.
    - unfold num. rewrite (ripple F (fun j => w (nthc x j) i) (fun j => w (nthc y j) i) (cs i) (fun j => w (nthc (wa_zout g) j) i) m) by (intros j Hj; now apply FA).
      unfold cs at 1. rewrite Nat.eqb_refl. lia.
    - destruct (carry_in_bit flags) as [c|] eqn:EC; [|exact I]. f_equal. specialize (H1 0 Hm i Hi). unfold cs. destruct (Nat.eqb_spec 0 m); [lia|exact H1].
  Qed.

  Lemma incr_ens n m x : ens F basis n (incr_new F m x) (fun w g =>
      (forall j, j < m -> forall i, i < n -> match j with 0 => w (nthc (i_cin g) 0) i = f1 | _ => isbit (w (nthc (i_cin g) j) i) end) /\
      (forall j, j < m -> forall i, i < n -> w (nthc (i_zout g) j) i = (w (nthc x j) i + w (nthc (i_cin g) j) i)%F) /\
      (forall j, j < m -> forall i, i < n -> (w (nthc x j) i * w (nthc (i_cin g) j) i)%F = w (if j =? m - 1 then i_final_carry g else nthc (i_cin g) (j + 1)) i)).
  Proof.
    unfold incr_new.
    eapply ens_conseq; [eapply ens_bind; [apply (ens_from_fn F basis n 0 _ (fun j w c => forall i, i < n -> match j with 0 => w c i = f1 | _ => isbit (w c i) end))|]|].
    - intros j Hj. destruct j as [|j]; cbn [Nat.eqb].
      + eapply ens_conseq; [apply ens_col|]. intros w c' H i Hi. cbn [col_ok length] in H. rewrite (H i) by lia. rewrite Nat.mod_1_r. reflexivity.
      + eapply ens_conseq; [apply ens_committed|]. intros w c' H i Hi. apply H. lia.
    - intros cin. eapply ens_bind; [apply (ens_from_fn F basis n 0 _ (fun _ _ _ => True)); intros; eapply ens_true, ens_committed|]. intros z.
      eapply ens_bind; [eapply ens_true, ens_committed|]. intros fc.
      eapply ens_bind; [apply (ens_from_fn F basis n tt); intros j Hj; eapply ens_bind; [apply ens_zero|intros u; apply ens_zero]|]. intros u.
      apply (ens_ret F basis n (mkIncr cin x z fc) (fun _ b => b = mkIncr cin x z fc)). reflexivity.
    - intros w g (cin & (_ & H1) & z & _ & fc & _ & u & (_ & H4) & ->). cbn [i_cin i_zout i_final_carry]. split; [|split].
      + intros j Hj i Hi. specialize (H1 j Hj i Hi). cbn [Nat.add] in H1. destruct j; exact H1.
      + intros j Hj i Hi. destruct (H4 j Hj) as (u1 & K1 & K2). specialize (K1 i). cbn [fst snd eeval GadgetModel.ECol' Nat.add] in K1. symmetry. apply (char2_add_eq0 F C2). apply K1. lia.
      + intros j Hj i Hi. destruct (H4 j Hj) as (u1 & K1 & K2). specialize (K2 i). cbn [fst snd eeval GadgetModel.ECol' Nat.add] in K2. apply (char2_add_eq0 F C2). apply K2. lia.
  Qed.
  (** Incr: the output is the input plus one, and the final carry is the overflow. *)
  Theorem incr_sound m x t g t' : 0 < m -> incr_new F m x t = (g, t') ->
    forall n w, satisfies F basis n w t' -> bitcols n m w x ->
    bitcols n m w (i_zout g) /\ forall i, i < n -> num m w x i + 1 = num m w (i_zout g) i + 2 ^ m * b2n (w (i_final_carry g) i).
  Proof.
    intros Hm E n w SW BX. destruct (incr_ens n m x _ _ _ E w SW) as (_ & H1 & H3 & H4).
    set (cs := fun i j => if j =? m then w (i_final_carry g) i else w (nthc (i_cin g) j) i).
    assert (CB : forall i, i < n -> forall j, j < m -> isbit (w (nthc (i_cin g) j) i)).
    { intros i Hi j Hj. specialize (H1 j Hj i Hi). destruct j as [|j]; [now right|exact H1]. }
    assert (FA : forall i, i < n -> forall j, j < m -> b2n (w (nthc x j) i) + b2n (f0 : F) + b2n (cs i j) = b2n (w (nthc (i_zout g) j) i) + 2 * b2n (cs i (S j)) /\ isbit (w (nthc (i_zout g) j) i)).
    { intros i Hi j Hj. assert (E1 : cs i j = w (nthc (i_cin g) j) i) by (unfold cs; destruct (Nat.eqb_spec j m); [lia|reflexivity]).
      assert (E2 : cs i (S j) = w (if j =? m - 1 then i_final_carry g else nthc (i_cin g) (j + 1)) i).
      { unfold cs. destruct (Nat.eqb_spec (S j) m), (Nat.eqb_spec j (m - 1)); try lia; [reflexivity|]. now rewrite Nat.add_1_r. }
      destruct (full_adder F C2 (w (nthc x j) i) f0 (cs i j) (w (nthc (i_zout g) j) i) (cs i (S j))) as (A1 & A2 & _); auto.
      - now left.
      - rewrite E1. auto.
      - rewrite E1, E2, <- H4 by auto. destruct (CB i Hi j Hj) as [-> | ->]; [ring|]. transitivity (w (nthc x j) i * f1 + (f1 + f1))%F; [ring|]. rewrite C2. ring.
      - rewrite E1. rewrite H3 by auto. ring. }
    split; [intros j Hj i Hi; now apply FA|].
    intros i Hi. unfold num.
    pose proof (ripple F (fun j => w (nthc x j) i) (fun _ => f0) (cs i) (fun j => w (nthc (i_zout g) j) i) m (fun j Hj => proj1 (FA i Hi j Hj))) as R.
    assert (Z : forall k, bnum (fun _ => f0) k = 0) by (induction k as [|k IH]; cbn [AddProps.bnum]; [reflexivity|]; rewrite IH, b2n_0; lia). rewrite Z in R.
    assert (cs i 0 = f1) as E0. { unfold cs. destruct (Nat.eqb_spec 0 m); [lia|]. apply (H1 0 Hm i Hi). } rewrite E0, b2n_1 in R.
    unfold cs in R at 1. rewrite Nat.eqb_refl in R. lia.
  Qed.

  (** *** Completeness *)
  Notation len t := (length (t_cols F t)).
  Lemma bit_add a b : isbit a -> isbit b -> isbit (a + b)%F.
  Proof. intros [->| ->] [->| ->]; unfold AddProps.isbit; [left; ring|right; ring|right; ring|left; exact C2]. Qed.
  Lemma bit_mul a b : isbit a -> isbit b -> isbit (a * b)%F.
  Proof. intros [->| ->] [->| ->]; unfold AddProps.isbit; [left; ring|left; ring|left; ring|right; ring]. Qed.
  Lemma wide_carry_bit x y c j : (forall j, isbit (x j)) -> (forall j, isbit (y j)) -> isbit c -> isbit (wide_carry F x y c j).
  Proof. intros Hx Hy Hc. induction j as [|j IH]; cbn [wide_carry]; [exact Hc|]. apply bit_add; [apply bit_mul; apply bit_add|]; auto. Qed.
  Lemma wide_borrow_bit x y c j : (forall j, isbit (x j)) -> (forall j, isbit (y j)) -> isbit c -> isbit (wide_borrow F x y c j).
  Proof. intros Hx Hy Hc. induction j as [|j IH]; cbn [wide_borrow]; [exact Hc|]. apply bit_add; apply bit_mul; auto; apply bit_add; auto. now right. Qed.

  (** The bit columns [l] hold the bits [f j i] (bit [j], row [i]). *)
  Definition hold (n m : nat) (w : wit) (l : list col) (f : nat -> nat -> F) : Prop := forall j, j < m -> forall i, i < n -> w (nthc l j) i = f j i.

  Lemma wide_add_can n lb m x y flags (fx fy : nat -> nat -> F) (c0 : nat -> F) : 0 < m ->
    (forall j i, isbit (fx j i)) -> (forall j i, isbit (fy j i)) -> (forall i, isbit (c0 i)) ->
    let cs i := wide_carry F (fun j => fx j i) (fun j => fy j i) (c0 i) in
    can F basis n (fun w => hold n m w x fx /\ hold n m w y fy /\ match carry_in_bit flags with Some c => forall i, i < n -> w c (i * 2 ^ lb) = c0 i | None => True end)
      (wide_add_new F lb m x y flags)
      (fun w g => hold n m w (wa_cin g) (fun j i => cs i j) /\ hold n m w (wa_zout g) (fun j i => (fx j i + fy j i + cs i j)%F) /\ forall i, i < n -> w (wa_final_carry g) i = cs i m).
  Proof.
    intros Hm Bx By Bc cs. assert (Bs : forall i j, isbit (cs i j)) by (intros; apply wide_carry_bit; auto). unfold wide_add_new.
    eapply can_bind; [apply (can_from_fn F basis n 0 _ (fun j w c => forall i, w c i = cs i j))|].
    { intros j Hj. destruct (Nat.eqb_spec j 0) as [->|N]; [destruct (carry_in_bit flags) as [c|]|].
      - apply can_col. intros w c' (_ & _ & HC) E i Hi. rewrite E, Nat.add_0_r, HC by lia. reflexivity.
      - apply can_committed. intros i. apply (Bs i 0).
      - apply can_committed. intros i. apply Bs. }
    intros cin. eapply can_bind with (Q := fun w z => forall j, j < m -> forall i, w (nthc z j) i = (fx j i + fy j i + cs i j)%F).
    { destruct (add_commit_zout flags).
      - eapply can_bind; [apply (can_committed_multiple F basis n _ m 1 (fun j i => (fx j i + fy j i + cs i j)%F)); intros; apply bit_add; [apply bit_add|]; auto|]. intros z.
        eapply can_bind; [apply (can_from_fn F basis n tt _ (fun _ _ _ => True)); intros j Hj; apply can_zero|].
        + intros w [[(HX & HY & HC) [_ HI]] [_ HZ]] i Hi. cbn [fst] in Hi. cbn [fst snd eeval GadgetModel.ECol']. assert (Hi' : i < n) by lia.
          unfold nthc at 3 4. rewrite HX, HY, HI, HZ by lia. apply (char2_double F C2).
        + intros u. apply can_ret. intros w [[_ [_ HZ]] _]. exact HZ.
      - eapply can_post; [apply (can_from_fn F basis n 0 _ (fun j w c => forall i, w c i = (fx j i + fy j i + cs i j)%F)); intros j Hj|].
        + apply (can_computed F C2); [intros _ i; apply bit_add; [apply bit_add|]; auto|].
          intros w [(HX & HY & HC) [_ HI]] i Hi. cbn [eeval GadgetModel.ECol']. unfold nthc at 3. rewrite HX, HY, HI by lia. reflexivity.
        + intros w z _ [_ HZ]. exact HZ. }
    intros z. eapply can_bind; [apply (can_committed F basis n _ 1 (fun i => cs i m)); intros; apply Bs|]. intros fc.
    eapply can_bind; [apply (can_from_fn F basis n tt _ (fun _ _ _ => True)); intros j Hj; apply can_zero|].
    { intros w [[[(HX & HY & HC) [_ HI]] HZ] HFC] i Hi. cbn [fst] in Hi. cbn [fst snd eeval GadgetModel.ECol']. assert (Hi' : i < n) by lia. rewrite HX, HY by lia.
      assert (E1 : w (nthc cin j) i = cs i j) by (apply HI; lia).
      assert (E2 : w (if j =? m - 1 then fc else nthc cin (j + 1)) i = cs i (S j)).
      { destruct (Nat.eqb_spec j (m - 1)) as [->|N]; [rewrite HFC; f_equal; lia|]. rewrite Nat.add_1_r. apply HI. lia. }
      rewrite E1, E2. unfold cs at 4. cbn [wide_carry]. fold (cs i j). apply (char2_double F C2). }
    intros u. apply can_ret. intros w [[[[(HX & HY & HC) [_ HI]] HZ] HFC] _]. cbn [wa_cin wa_zout wa_final_carry]. split; [intros j Hj i Hi; apply HI; lia|]. split; [intros j Hj i Hi; now apply HZ|]. intros i Hi. apply HFC.
  Qed.

  (** From the program logic to runs of the builder. *)
  Lemma can_run {A} n P (m : builder F A) Q t a t' w : can F basis n P m Q -> m t = (a, t') ->
    (forall w', agree F (len t) w w' -> satisfies F basis n w' t /\ P w') -> exists w', agree F (len t) w w' /\ satisfies F basis n w' t' /\ Q w' a.
  Proof.
    intros H E HW. destruct (H t a t' E) as [_ K]. destruct (K w HW) as (w' & A' & H'). exists w'. split; [exact A'|]. apply H'. apply agree_refl.
  Qed.
  Definition below (t : table F) (m : nat) (l : list col) : Prop := forall j, j < m -> nthc l j < len t.

  (** WideAdd: for all input bits and any first carry [c0] allowed by the flags there are values for the new columns that satisfy
      the table; they are the ones written by populate when [c0] is the first carry it uses. *)
  Theorem wide_add_complete lb m x y flags t g t' : 0 < m -> wide_add_new F lb m x y flags t = (g, t') ->
    forall n w fx fy c0, (forall w', agree F (len t) w w' -> satisfies F basis n w' t) -> below t m x -> below t m y -> hold n m w x fx -> hold n m w y fy ->
    (forall j i, isbit (fx j i)) -> (forall j i, isbit (fy j i)) -> (forall i, isbit (c0 i)) ->
    match carry_in_bit flags with Some c => c < len t /\ forall i, i < n -> w c (i * 2 ^ lb) = c0 i | None => True end ->
    exists w', agree F (len t) w w' /\ satisfies F basis n w' t' /\
      forall i, i < n ->
        let c := wide_carry F (fun j => fx j i) (fun j => fy j i) (c0 i) in
        (forall j, j < m -> w' (nthc (wa_cin g) j) i = c j /\ w' (nthc (wa_zout g) j) i = (fx j i + fy j i + c j)%F) /\
        w' (wa_final_carry g) i = c m.
  Proof.
    intros Hm E n w fx fy c0 HS LX LY HX HY Bx By Bc HC.
    destruct (can_run n _ _ _ t g t' w (wide_add_can n lb m x y flags fx fy c0 Hm Bx By Bc) E) as (w' & A' & S' & (K1 & K2 & K3)).
    - intros w1 A1. split; [now apply HS|]. split; [|split].
      + intros j Hj i Hi. rewrite <- A1 by (apply LX; auto). now apply HX.
      + intros j Hj i Hi. rewrite <- A1 by (apply LY; auto). now apply HY.
      + destruct (carry_in_bit flags) as [c|]; [|exact I]. destruct HC as [Lc HC]. intros i Hi. rewrite <- A1 by auto. now apply HC.
    - exists w'. split; [exact A'|]. split; [exact S'|]. intros i Hi. split; [intros j Hj; split; [apply K1|apply K2]; auto|now apply K3].
  Qed.

  (** WideAdd without a carry-in column does not constrain its first carry: it also accepts [x + y + 1]. *)
  Theorem wide_add_carry_refuted lb m x y flags t g t' : 0 < m -> carry_in_bit flags = None -> wide_add_new F lb m x y flags t = (g, t') ->
    forall n w, (forall w', agree F (len t) w w' -> satisfies F basis n w' t) -> below t m x -> below t m y -> bitcols n m w x -> bitcols n m w y ->
    exists w', agree F (len t) w w' /\ satisfies F basis n w' t' /\
      forall i, i < n -> num m w' x i + num m w' y i + 1 = num m w' (wa_zout g) i + 2 ^ m * b2n (w' (wa_final_carry g) i).
  Proof.
    intros Hm EF E n w HS LX LY BX BY.
    set (cl := fun v : F => if feqb v f0 then f0 else f1 : F).
    assert (Bcl : forall v, isbit (cl v)) by (intros v; unfold cl; destruct (feqb v f0); [now left|now right]).
    assert (Ecl : forall v, isbit v -> v = cl v) by (intros v [->| ->]; unfold cl; [now rewrite feqb_refl|]; destruct (feqb_spec F f1 f0) as [E1|]; [now destruct (f_10 F)|reflexivity]).
    destruct (wide_add_complete lb m x y flags t g t' Hm E n w (fun j i => cl (w (nthc x j) i)) (fun j i => cl (w (nthc y j) i)) (fun _ => f1)) as (w' & A' & S' & K); auto.
    - intros j Hj i Hi. apply Ecl. auto.
    - intros j Hj i Hi. apply Ecl. auto.
    - intros i. now right.
    - rewrite EF. exact I.
    - exists w'. split; [exact A'|]. split; [exact S'|]. intros i Hi.
      assert (BX' : bitcols n m w' x) by (intros j Hj k Hk; rewrite <- A' by (apply LX; auto); auto).
      assert (BY' : bitcols n m w' y) by (intros j Hj k Hk; rewrite <- A' by (apply LY; auto); auto).
      destruct (K i Hi) as [K1 K2].
      destruct (wide_add_ens n lb m x y flags _ _ _ E w' S') as (_ & H1 & H2 & H3 & H4).
      assert (BZ : forall j, j < m -> b2n (w' (nthc x j) i) + b2n (w' (nthc y j) i) + b2n (wide_carry F (fun j => cl (w (nthc x j) i)) (fun j => cl (w (nthc y j) i)) f1 j) =
         b2n (w' (nthc (wa_zout g) j) i) + 2 * b2n (wide_carry F (fun j => cl (w (nthc x j) i)) (fun j => cl (w (nthc y j) i)) f1 (S j))).
      { intros j Hj. destruct (K1 j Hj) as [E1 E2]. rewrite <- E1.
        destruct (full_adder F C2 (w' (nthc x j) i) (w' (nthc y j) i) (w' (nthc (wa_cin g) j) i) (w' (nthc (wa_zout g) j) i)
           (wide_carry F (fun j => cl (w (nthc x j) i)) (fun j => cl (w (nthc y j) i)) f1 (S j))) as (A1 & _); auto.
        - rewrite E1. apply wide_carry_bit; auto. now right.
        - cbn [wide_carry]. rewrite E1. rewrite <- !Ecl by (auto; apply BX || apply BY; auto). rewrite <- !A' by (apply LX || apply LY; auto). reflexivity.
        - symmetry. rewrite H3 by auto. reflexivity. }
      pose proof (ripple F _ _ _ (fun j => w' (nthc (wa_zout g) j) i) m BZ) as R.
      change (wide_carry F (fun j => cl (w (nthc x j) i)) (fun j => cl (w (nthc y j) i)) f1 0) with (f1 : F) in R. rewrite b2n_1 in R. unfold num. rewrite K2, R. lia.
  Qed.

  (** WideAdd::populate with a carry-in column: it fills the first carry of row [r] from flat position [r] of the carry column
      instead of the first bit of row [r], so that no assignment extending what it writes satisfies the table as soon as these
      differ in some row. *)
  Theorem wide_add_populate_refuted lb m x y flags c t g t' : 0 < m -> carry_in_bit flags = Some c -> wide_add_new F lb m x y flags t = (g, t') ->
    forall n w r, r < n -> w c r <> w c (r * 2 ^ lb) -> w (nthc (wa_cin g) 0) r = wide_first_carry F w flags r -> ~ satisfies F basis n w t'.
  Proof.
    intros Hm EF E n w r Hr HN HP SW. destruct (wide_add_ens n lb m x y flags _ _ _ E w SW) as (_ & H1 & _). specialize (H1 0 Hm r Hr). rewrite EF in H1. apply HN.
    unfold wide_first_carry in HP. rewrite EF in HP. congruence.
  Qed.

  (** *** Subtraction *)
  Lemma wide_sub_ens n lb m x y flags : 0 < m -> ens F basis n (wide_sub_new F lb m x y flags) (fun w g =>
      bitcols n m w (ws_bout g) /\
      (forall i, i < n -> w (ws_bin g) i = match borrow_in_bit flags with Some c => w c (i * 2 ^ lb) | None => f0 end) /\
      (forall j, j < m -> forall i, i < n -> w (nthc (ws_zout g) j) i = (w (nthc x j) i + w (nthc y j) i + (if j =? 0 then w (ws_bin g) i else w (nthc (ws_bout g) (j - 1)) i))%F) /\
      ws_final_borrow g = if expose_final_borrow flags then Some (nthc (ws_bout g) (m - 1)) else None).
  Proof.
    intros Hm. unfold wide_sub_new.
    eapply ens_conseq; [eapply ens_bind; [apply (ens_from_fn F basis n 0 _ (fun j w c => forall i, i < n * 1 -> isbit (w c i))); intros; apply ens_committed|intros bout]|].
    - eapply ens_bind; [apply (ens_from_fn F basis n 0 _ (fun j w c => forall i, i < n -> w c i = if j =? 0 then match borrow_in_bit flags with Some c => w c (i * 2 ^ lb) | None => f0 end else w (nthc bout (j - 1)) i))|].
      + intros j Hj. destruct (j =? 0) eqn:Ej.
        * destruct (borrow_in_bit flags) as [c|].
          -- eapply ens_conseq; [apply ens_col|]. intros w c' H i Hi. cbn [col_ok] in H. rewrite (H i) by lia. now rewrite Nat.add_0_r.
          -- eapply ens_conseq; [apply ens_col|]. intros w c' H i Hi. cbn [col_ok length] in H. rewrite (H i) by lia. now rewrite Nat.mod_1_r.
        * apply ens_ret. intros w i Hi. reflexivity.
      + intros bin. eapply ens_bind.
        * instantiate (1 := fun w z => forall j, j < m -> forall i, i < n -> w (nthc z j) i = (w (nthc x j) i + w (nthc y j) i + w (nthc bin j) i)%F).
          destruct (sub_commit_zout flags).
          -- eapply ens_conseq; [eapply ens_bind; [apply (ens_from_fn F basis n 0 _ (fun _ _ _ => True)); intros; eapply ens_true, ens_committed|intros z; eapply ens_bind; [apply (ens_from_fn F basis n tt); intros j Hj; apply ens_zero|intros u; apply (ens_ret F basis n z (fun _ b => b = z)); reflexivity]]|].
             intros w b (z & Hz & u & (_ & HZ) & ->) j Hj i Hi. specialize (HZ j Hj i). cbn [fst snd eeval GadgetModel.ECol'] in HZ. symmetry. apply (char2_add_eq0 F C2). apply HZ. lia.
          -- eapply ens_conseq; [apply (ens_from_fn F basis n 0); intros j Hj; apply (ens_computed F C2)|]. intros w z (_ & H) j Hj i Hi. specialize (H j Hj i). cbn [eeval GadgetModel.ECol'] in H. apply H. lia.
        * intros z.
          apply (ens_ret F basis n (mkWideSub x y (nthc bin 0) bout z (if expose_final_borrow flags then Some (nthc bout (m - 1)) else None))
            (fun _ b => b = mkWideSub x y (nthc bin 0) bout z (if expose_final_borrow flags then Some (nthc bout (m - 1)) else None))). reflexivity.
    - intros w g (bout & (_ & H1) & bin & (_ & H2) & z & H3 & ->). cbn [ws_bout ws_bin ws_zout ws_final_borrow]. split; [|split; [|split; [|reflexivity]]].
      + intros j Hj i Hi. apply H1; lia.
      + intros i Hi. exact (H2 0 Hm i Hi).
      + intros j Hj i Hi. rewrite H3 by auto. assert (EJ : w (nthc bin j) i = if j =? 0 then w (nthc bin 0) i else w (nthc bout (j - 1)) i).
        { destruct (Nat.eqb_spec j 0) as [->|N]; [reflexivity|]. pose proof (H2 j Hj i Hi) as K. cbn [Nat.add] in K. destruct (Nat.eqb_spec j 0); [lia|]. exact K. }
        now rewrite EJ.
  Qed.

  Lemma wide_sub_can n lb m x y flags (fx fy : nat -> nat -> F) (b0 : nat -> F) (bo : nat -> nat -> F) : 0 < m ->
    (forall j i, isbit (fx j i)) -> (forall j i, isbit (fy j i)) -> (forall i, isbit (b0 i)) -> (forall j i, isbit (bo j i)) ->
    let bi j i := if j =? 0 then b0 i else bo (j - 1) i in
    can F basis n (fun w => hold n m w x fx /\ hold n m w y fy /\ match borrow_in_bit flags with Some c => forall i, i < n -> w c (i * 2 ^ lb) = b0 i | None => forall i, b0 i = f0 end)
      (wide_sub_new F lb m x y flags)
      (fun w g => hold n m w (ws_bout g) bo /\ hold n m w (ws_zout g) (fun j i => (fx j i + fy j i + bi j i)%F) /\ forall i, i < n -> w (ws_bin g) i = b0 i).
  Proof.
    intros Hm Bx By Bb Bo bi. assert (Bi : forall j i, isbit (bi j i)) by (intros j i; unfold bi; destruct (j =? 0); auto). unfold wide_sub_new.
    eapply can_bind; [apply (can_committed_multiple F basis n _ m 1 bo); intros; apply Bo|]. intros bout.
    eapply can_bind; [apply (can_from_fn F basis n 0 _ (fun j w c => forall i, w c i = bi j i))|].
    { intros j Hj. unfold bi. destruct (Nat.eqb_spec j 0) as [->|N]; [destruct (borrow_in_bit flags) as [c|]|].
      - apply can_col. intros w c' [(_ & _ & HC) _] E i Hi. rewrite E, Nat.add_0_r, HC by lia. reflexivity.
      - apply can_col. intros w c' [(_ & _ & HC) _] E i Hi. cbn [length]. rewrite E, Nat.mod_1_r. apply HC.
      - apply can_ret. intros w [_ [_ HO]] i. apply HO. lia. }
    intros bin. eapply can_bind with (Q := fun w z => forall j, j < m -> forall i, w (nthc z j) i = (fx j i + fy j i + bi j i)%F).
    { destruct (sub_commit_zout flags).
      - eapply can_bind; [apply (can_committed_multiple F basis n _ m 1 (fun j i => (fx j i + fy j i + bi j i)%F)); intros; apply bit_add; [apply bit_add|]; auto|]. intros z.
        eapply can_bind; [apply (can_from_fn F basis n tt _ (fun _ _ _ => True)); intros j Hj; apply can_zero|].
        + intros w [[[(HX & HY & HC) _] [_ HI]] [_ HZ]] i Hi. cbn [fst] in Hi. cbn [fst snd eeval GadgetModel.ECol']. assert (Hi' : i < n) by lia.
          unfold nthc at 3 4. rewrite HX, HY, HI, HZ by lia. apply (char2_double F C2).
        + intros u. apply can_ret. intros w [[_ [_ HZ]] _]. exact HZ.
      - eapply can_post; [apply (can_from_fn F basis n 0 _ (fun j w c => forall i, w c i = (fx j i + fy j i + bi j i)%F)); intros j Hj|].
        + apply (can_computed F C2); [intros _ i; apply bit_add; [apply bit_add|]; auto|].
          intros w [[(HX & HY & HC) _] [_ HI]] i Hi. cbn [eeval GadgetModel.ECol']. unfold nthc at 3. rewrite HX, HY, HI by lia. reflexivity.
        + intros w z _ [_ HZ]. exact HZ. }
    intros z. apply can_ret. intros w [[[_ [_ HO]] [_ HI]] HZ]. cbn [ws_bout ws_zout ws_bin]. split; [intros j Hj i Hi; apply HO; lia|]. split; [intros j Hj i Hi; apply HZ; lia|].
    intros i Hi. exact (HI 0 Hm i).
  Qed.

  (** The borrows computed by WideSub::populate are those of subtraction. *)
  Lemma wide_borrow_num x y b k : (forall j, isbit (x j)) -> (forall j, isbit (y j)) -> isbit b ->
    bnum (fun j => (x j + y j + wide_borrow F x y b j)%F) k + bnum y k + b2n b = bnum x k + 2 ^ k * b2n (wide_borrow F x y b k).
  Proof.
    intros Hx Hy Hb. change (b2n b) with (b2n (wide_borrow F x y b 0)). rewrite (ripple F (fun j => (x j + y j + wide_borrow F x y b j)%F) y (wide_borrow F x y b) x k); [lia|]. intros j Hj.
    destruct (full_subtractor F C2 (x j) (y j) (wide_borrow F x y b j) (x j + y j + wide_borrow F x y b j)%F (wide_borrow F x y b (S j))) as (A1 & _); auto; [now apply wide_borrow_bit|].
    cbn [wide_borrow]. assert (B := wide_borrow_bit x y b j Hx Hy Hb). set (c := wide_borrow F x y b j) in *.
    assert (D : forall u : F, isbit u -> exists v, u = bF F v) by (intros u [->| ->]; [now exists false|now exists true]).
    destruct (D _ B) as [vc ->], (D _ (Hx j)) as [vx ->], (D _ (Hy j)) as [vy ->]. change (f1 : F) with (bF F true).
    rewrite !(xor_F F C2), !(and_F F), !(xor_F F C2). destruct vc, vx, vy; reflexivity.
  Qed.

  (** WideSub: for all input bits the values written by populate satisfy the table, and they are the difference and its borrow. *)
  Theorem wide_sub_complete lb m x y flags t g t' : 0 < m -> wide_sub_new F lb m x y flags t = (g, t') ->
    forall n w fx fy b0, (forall w', agree F (len t) w w' -> satisfies F basis n w' t) -> below t m x -> below t m y -> hold n m w x fx -> hold n m w y fy ->
    (forall j i, isbit (fx j i)) -> (forall j i, isbit (fy j i)) -> (forall i, isbit (b0 i)) ->
    match borrow_in_bit flags with Some c => c < len t /\ forall i, i < n -> w c (i * 2 ^ lb) = b0 i | None => forall i, b0 i = f0 end ->
    exists w', agree F (len t) w w' /\ satisfies F basis n w' t' /\
      forall i, i < n ->
        let b := wide_borrow F (fun j => fx j i) (fun j => fy j i) (b0 i) in
        (forall j, j < m -> w' (nthc (ws_bout g) j) i = b (S j) /\ w' (nthc (ws_zout g) j) i = (fx j i + fy j i + b j)%F) /\
        num m w' (ws_zout g) i + num m w' y i + b2n (b0 i) = num m w' x i + 2 ^ m * b2n (w' (nthc (ws_bout g) (m - 1)) i).
  Proof.
    intros Hm E n w fx fy b0 HS LX LY HX HY Bx By Bb HC.
    set (bo := fun j i => wide_borrow F (fun j => fx j i) (fun j => fy j i) (b0 i) (S j)).
    assert (Bo : forall j i, isbit (bo j i)) by (intros; apply wide_borrow_bit; auto).
    destruct (can_run n _ _ _ t g t' w (wide_sub_can n lb m x y flags fx fy b0 bo Hm Bx By Bb Bo) E) as (w' & A' & S' & (K1 & K2 & K3)).
    - intros w1 A1. split; [now apply HS|]. split; [|split].
      + intros j Hj i Hi. rewrite <- A1 by (apply LX; auto). now apply HX.
      + intros j Hj i Hi. rewrite <- A1 by (apply LY; auto). now apply HY.
      + destruct (borrow_in_bit flags) as [c|]; [|exact HC]. destruct HC as [Lc HC]. intros i Hi. rewrite <- A1 by auto. now apply HC.
    - exists w'. split; [exact A'|]. split; [exact S'|]. intros i Hi. intros b.
      assert (KZ : forall j, j < m -> w' (nthc (ws_zout g) j) i = (fx j i + fy j i + b j)%F).
      { intros j Hj. rewrite K2 by auto. destruct (Nat.eqb_spec j 0) as [->|N]; [reflexivity|]. unfold bo. now replace (S (j - 1)) with j by lia. }
      split; [intros j Hj; split; [rewrite K1 by auto; reflexivity|auto]|].
      unfold num. rewrite (bnum_ext F (fun j => w' (nthc (ws_zout g) j) i) _ m KZ).
      rewrite (bnum_ext F (fun j => w' (nthc y j) i) (fun j => fy j i) m) by (intros j Hj; rewrite <- A' by (apply LY; auto); auto).
      rewrite (bnum_ext F (fun j => w' (nthc x j) i) (fun j => fx j i) m) by (intros j Hj; rewrite <- A' by (apply LX; auto); auto).
      rewrite K1 by lia. unfold bo. replace (S (m - 1)) with m by lia. apply wide_borrow_num; auto.
  Qed.

  (** WideSub does not constrain its borrows: only the lowest output bit is determined, and every output with the right lowest bit
      is accepted. *)
  Theorem wide_sub_sound_partial lb m x y flags t g t' : 0 < m -> wide_sub_new F lb m x y flags t = (g, t') ->
    forall n w, satisfies F basis n w t' -> bitcols n m w x -> bitcols n m w y ->
    match borrow_in_bit flags with Some c => forall i, i < n -> isbit (w c (i * 2 ^ lb)) | None => True end ->
    bitcols n m w (ws_zout g) /\
    forall i, i < n -> w (nthc (ws_zout g) 0) i = (w (nthc x 0) i + w (nthc y 0) i + match borrow_in_bit flags with Some c => w c (i * 2 ^ lb)%nat | None => f0 end)%F.
  Proof.
    intros Hm E n w SW BX BY BC. destruct (wide_sub_ens n lb m x y flags Hm _ _ _ E w SW) as (_ & H1 & H2 & H3 & _). split.
    - intros j Hj i Hi. rewrite H3 by auto. apply bit_add; [apply bit_add; auto|]. destruct (j =? 0); [rewrite H2 by auto; destruct (borrow_in_bit flags); [auto|now left]|apply H1; auto; lia].
    - intros i Hi. rewrite H3 by auto. cbn [Nat.eqb]. now rewrite H2.
  Qed.
  Theorem wide_sub_refuted lb m x y flags t g t' : 0 < m -> borrow_in_bit flags = None -> wide_sub_new F lb m x y flags t = (g, t') ->
    forall n w fx fy, (forall w', agree F (len t) w w' -> satisfies F basis n w' t) -> below t m x -> below t m y -> hold n m w x fx -> hold n m w y fy ->
    (forall j i, isbit (fx j i)) -> (forall j i, isbit (fy j i)) ->
    forall Z : nat -> nat -> F, (forall j i, isbit (Z j i)) -> (forall i, Z 0 i = (fx 0%nat i + fy 0%nat i)%F) ->
    exists w', agree F (len t) w w' /\ satisfies F basis n w' t' /\ hold n m w' (ws_zout g) Z.
  Proof.
    intros Hm EF E n w fx fy HS LX LY HX HY Bx By Z BZ Z0.
    set (bo := fun j i => (fx (S j) i + fy (S j) i + Z (S j) i)%F).
    assert (Bo : forall j i, isbit (bo j i)) by (intros; unfold bo; apply bit_add; [apply bit_add|]; auto).
    destruct (can_run n _ _ _ t g t' w (wide_sub_can n lb m x y flags fx fy (fun _ => f0) bo Hm Bx By (fun _ => or_introl eq_refl) Bo) E) as (w' & A' & S' & (K1 & K2 & K3)).
    - intros w1 A1. split; [now apply HS|]. split; [|split].
      + intros j Hj i Hi. rewrite <- A1 by (apply LX; auto). now apply HX.
      + intros j Hj i Hi. rewrite <- A1 by (apply LY; auto). now apply HY.
      + rewrite EF. reflexivity.
    - exists w'. split; [exact A'|]. split; [exact S'|]. intros j Hj i Hi. rewrite K2 by auto. destruct (Nat.eqb_spec j 0) as [->|N]; [rewrite Z0; ring|].
      unfold bo. replace (S (j - 1)) with j by lia. transitivity ((fx j i + fx j i) + (fy j i + fy j i) + Z j i)%F; [ring|]. rewrite !(char2_double F C2). ring.
  Qed.

  (** *** Increment *)
  Lemma incr_can n m x (fx : nat -> nat -> F) : 0 < m -> (forall j i, isbit (fx j i)) ->
    let cs i := wide_carry F (fun j => fx j i) (fun j => f0) f1 in
    can F basis n (fun w => hold n m w x fx) (incr_new F m x)
      (fun w g => hold n m w (i_cin g) (fun j i => cs i j) /\ hold n m w (i_zout g) (fun j i => (fx j i + cs i j)%F) /\ forall i, i < n -> w (i_final_carry g) i = cs i m).
  Proof.
    intros Hm Bx cs. assert (Bs : forall i j, isbit (cs i j)) by (intros; apply wide_carry_bit; auto; [now left|now right]). unfold incr_new.
    assert (EC : forall i j, (fx j i * cs i j)%F = cs i (S j)).
    { intros i j. unfold cs at 2. cbn [wide_carry]. fold (cs i j). destruct (Bs i j) as [->| ->]; [ring|]. transitivity (fx j i * f1 + (f1 + f1))%F; [rewrite C2; ring|ring]. }
    eapply can_bind; [apply (can_from_fn F basis n 0 _ (fun j w c => forall i, w c i = cs i j))|].
    { intros j Hj. destruct (Nat.eqb_spec j 0) as [->|N].
      - apply can_col. intros w c' _ E i Hi. cbn [length]. now rewrite E, Nat.mod_1_r.
      - apply can_committed. intros i. apply Bs. }
    intros cin. eapply can_bind; [apply (can_committed_multiple F basis n _ m 1 (fun j i => (fx j i + cs i j)%F)); intros; apply bit_add; auto|]. intros z.
    eapply can_bind; [apply (can_committed F basis n _ 1 (fun i => cs i m)); intros; apply Bs|]. intros fc.
    eapply can_bind; [apply (can_from_fn F basis n tt _ (fun _ _ _ => True)); intros j Hj; eapply can_bind; [apply can_zero|intros u; apply can_zero]|].
    - intros w [[[HX [_ HI]] [_ HZ]] HFC] i Hi. cbn [fst] in Hi. cbn [fst snd eeval GadgetModel.ECol']. assert (Hi' : i < n) by lia. unfold nthc at 2 3. rewrite HX, HI, HZ by lia. apply (char2_double F C2).
    - intros w [[[[HX [_ HI]] [_ HZ]] HFC] _] i Hi. cbn [fst] in Hi. cbn [fst snd eeval GadgetModel.ECol']. assert (Hi' : i < n) by lia. rewrite HX by lia.
      assert (E1 : w (nthc cin j) i = cs i j) by (apply HI; lia).
      assert (E2 : w (if j =? m - 1 then fc else nthc cin (j + 1)) i = cs i (S j)).
      { destruct (Nat.eqb_spec j (m - 1)) as [->|N]; [rewrite HFC; f_equal; lia|]. rewrite Nat.add_1_r. apply HI. lia. }
      rewrite E1, E2, EC. apply (char2_double F C2).
    - intros u. apply can_ret. intros w [[[[HX [_ HI]] [_ HZ]] HFC] _]. cbn [i_cin i_zout i_final_carry]. split; [intros j Hj i Hi; apply HI; lia|]. split; [intros j Hj i Hi; apply HZ; lia|]. intros i Hi. apply HFC.
  Qed.
  (** Incr: for all input bits there are values for the new columns that satisfy the table. *)
  Theorem incr_complete m x t g t' : 0 < m -> incr_new F m x t = (g, t') ->
    forall n w, (forall w', agree F (len t) w w' -> satisfies F basis n w' t) -> below t m x -> bitcols n m w x ->
    exists w', agree F (len t) w w' /\ satisfies F basis n w' t'.
  Proof.
    intros Hm E n w HS LX BX.
    set (cl := fun v : F => if feqb v f0 then f0 else f1 : F).
    assert (Bcl : forall v, isbit (cl v)) by (intros v; unfold cl; destruct (feqb v f0); [now left|now right]).
    assert (Ecl : forall v, isbit v -> v = cl v) by (intros v [->| ->]; unfold cl; [now rewrite feqb_refl|]; destruct (feqb_spec F f1 f0) as [E1|]; [now destruct (f_10 F)|reflexivity]).
    destruct (can_run n _ _ _ t g t' w (incr_can n m x (fun j i => cl (w (nthc x j) i)) Hm (fun j i => Bcl _)) E) as (w' & A' & S' & _).
    - intros w1 A1. split; [now apply HS|]. intros j Hj i Hi. rewrite <- A1 by (apply LX; auto). apply Ecl. auto.
    - eauto.
  Qed.
End Wide.
